(** The linter in a run: when it raises an exception, and which types it is
    given. *)
From Coq Require Import Relations Permutation.
From Verif Require Import Base Lexer SymTab Ast TypesProofs Eval ParserBase ExprSyntax ParserValue ValueSyntax ParserDecl DeclSyntax Growth DeclInv ExprTyping
  Process RunSyntax SourceManProofs Lint LintProofs ProcessFuel Prop_Lint.
Open Scope Z_scope.

(** ** Exceptions *)

(** [get_example_value] does not return for enumerations, and tuples with
    them. *)
Inductive no_example (G : types) : ty -> Prop :=
| ne_enum e en : nth_error (enums G) e = Some en -> en_lits en <> [] -> no_example G (TEnum e)
| ne_tuple u ut c : nth_error (tups G) u = Some ut -> In c (u_comps ut) -> no_example G (c_typ c) -> no_example G (TTup u).
(** After an ambiguous separator comes another separator, or a component
    without an example. *)
Definition stuck (G : types) (ut : tuptype) : Prop :=
  exists i sep c, ambiguous ut i sep /\ nth_error (u_comps ut) (S i) = Some c /\
    (nth_error (u_seps ut) (S i) <> None \/ no_example G (c_typ c)).

Section LINT.
Variable G : types.
Hypothesis tuples : tuples_ok G.
(** Types of components are declared, and unions have members. *)
Definition proper (a : ty) : Prop :=
  match a with
  | TEnum e => nth_error (enums G) e <> None
  | TTup u => nth_error (tups G) u <> None
  | TUnion _ ms => ms <> []
  | TArr _ _ _ _ => False
  | _ => True
  end.
Hypothesis components : forall u ut c, nth_error (tups G) u = Some ut -> In c (u_comps ut) -> proper (c_typ c).

Fixpoint examples (n : nat) (cs : list component) : res unit unit :=
  match cs with
  | [] => Ok tt
  | c :: cs' => do _ <- example G n (c_typ c) ; examples n cs'
  end.
Lemma example_S n a : example G (S n) a =
  match a with
  | TInt | TDec | TBool | TStr | TMarkup | TRec _ => Ok tt
  | TUnion _ ms => match ms with [] => Crash | _ => Ok tt end
  | TEnum e => match nth_error (enums G) e with
               | Some en => match en_lits en with [] => Ok tt | _ => Crash end
               | None => Crash
               end
  | TArr _ _ _ el => example G n el
  | TTup u => match nth_error (tups G) u with None => Crash | Some ut => examples n (u_comps ut) end
  end.
Proof.
  destruct a as [| | | | |e|u|r|i ms|i lo hi el]; try reflexivity.
  change (match nth_error (tups G) u with None => Crash | Some ut =>
    (fix go (cs : list component) : res unit unit := match cs with [] => Ok tt | c :: cs' => do _ <- example G n (c_typ c) ; go cs' end) (u_comps ut) end
    = match nth_error (tups G) u with None => Crash | Some ut => examples n (u_comps ut) end).
  destruct (nth_error (tups G) u) as [ut|]; auto. induction (u_comps ut) as [|c cs IH]; auto. cbn [examples]. rewrite <- IH. auto.
Qed.
Lemma example_decides n : forall a, proper a -> example G n a <> OutOfFuel ->
  (example G n a = Ok tt /\ ~ no_example G a) \/ (example G n a = Crash /\ no_example G a).
Proof.
  induction n as [|n IH]; intros a Pa F; [destruct (F eq_refl)|]. destruct a as [| | | | |e|u|r|i ms|i lo hi el]; rewrite example_S in F |- *;
    try (left; split; [reflexivity|intros X; inversion X]; fail).
  - cbn [proper] in Pa. destruct (nth_error (enums G) e) as [en|] eqn:En; [|congruence]. destruct (en_lits en) as [|x l] eqn:L.
    + left. split; auto. intros X. inversion X; subst. congruence.
    + right. split; auto. econstructor; eauto. congruence.
  - cbn [proper] in Pa. destruct (nth_error (tups G) u) as [ut|] eqn:U; [|congruence].
    assert (C := fun c => components u ut c U).
    assert (K : forall cs, incl cs (u_comps ut) -> examples n cs <> OutOfFuel ->
      (examples n cs = Ok tt /\ forall c, In c cs -> ~ no_example G (c_typ c)) \/ (examples n cs = Crash /\ exists c, In c cs /\ no_example G (c_typ c))).
    { clear F. induction cs as [|c cs IHc]; cbn [examples]; intros Inc F; [left; split; auto; intros c []|].
      assert (Fc : example G n (c_typ c) <> OutOfFuel) by (intros E; rewrite E in F; destruct (F eq_refl)).
      destruct (IH (c_typ c) (C c (Inc c (or_introl eq_refl))) Fc) as [[E N]|[E N]]; rewrite E in F |- *; cbn [bind] in F |- *.
      - destruct IHc as [[E2 N2]|(E2 & d & I & N2)]; auto.
        + intros d I. apply Inc. cbn. auto.
        + left. split; auto. intros d [<-|I]; auto.
        + right. split; auto. exists d. cbn. auto.
      - right. split; auto. exists c. cbn. auto. }
    destruct (K (u_comps ut) (fun c I => I) F) as [[E N]|(E & c & I & N)]; [left|right]; split; auto.
    + intros X. inversion X; subst. assert (ut0 = ut) as -> by congruence. eapply N; eauto.
    + econstructor; eauto.
  - destruct ms; [destruct (Pa eq_refl)|]. left. split; auto. intros X; inversion X.
  - destruct Pa.
Qed.
Lemma items_decide u cs : (forall c, In c cs -> proper (c_typ c) /\ (cost (c_typ c) < example_fuel G)%nat) ->
  forall ss w s, ss = [] \/ List.length cs = S (List.length ss) ->
  let bad := exists i sep c, bad_in cs ss i sep /\ nth_error cs (S i) = Some c /\ (nth_error ss (S i) <> None \/ no_example G (c_typ c)) in
  (tuple_items G u (interleave cs ss) w None s = Crash /\ bad) \/ (exists s', tuple_items G u (interleave cs ss) w None s = Ok s' /\ ~ bad).
Proof.
  intros Pr. induction cs as [|c cs IH]; intros ss w s Le; cbv zeta.
  { right. exists s. split; auto. intros (i & sep & c & (d & sp & N & _) & _). destruct i; discriminate. }
  assert (Nil : forall cs w s, tuple_items G u (interleave cs []) w None s = Ok s).
  { clear. induction cs as [|c cs IH]; cbn; auto. intros. destruct (is_integer (c_typ c)); auto. }
  destruct ss as [|sp ss].
  { right. exists s. split; auto. intros (i & sep & d & (x & y & _ & _ & N & _) & _). destruct i; discriminate. }
  destruct Le as [Le|Le]; [discriminate|]. cbn in Le. injection Le as Le.
  cbn [interleave tuple_items]. set (w' := is_integer (c_typ c)).
  replace (if is_integer (c_typ c) then _ else _) with
    (tuple_items G u (ISep sp :: interleave cs ss) w' None s) by (subst w'; destruct (is_integer (c_typ c)); reflexivity).
  cbn [tuple_items]. destruct (w' && bad_sep sp)%bool eqn:Bad.
  - apply andb_true_iff in Bad as [W B]. destruct cs as [|c2 cs]; [discriminate|]. cbn [interleave].
    assert (B0 : bad_in (c :: c2 :: cs) (sp :: ss) 0 (sep_text sp)) by (apply bad_in_0; auto).
    destruct (Pr c2 ltac:(cbn; auto)) as [P2 L2]. assert (F2 : flat (c_typ c2)) by (destruct (c_typ c2); cbn in *; auto).
    assert (X : (((if is_integer (c_typ c2) then Ok tt else example G (example_fuel G) (c_typ c2)) = Ok tt) /\ ~ no_example G (c_typ c2)) \/
                (((if is_integer (c_typ c2) then Ok tt else example G (example_fuel G) (c_typ c2)) = Crash) /\ no_example G (c_typ c2))).
    { destruct (is_integer (c_typ c2)) eqn:I2.
      - left. split; auto. intros N. inversion N as [? ? ? ? E|? ? ? ? ? ? E]; rewrite <- E in I2; discriminate.
      - apply example_decides; auto. apply example_fuel_enough; auto. }
    destruct ss as [|sp2 ss].
    + cbn [interleave tuple_items]. destruct X as [[-> N]|[-> N]]; cbn [bind].
      * right. destruct cs; [|discriminate]. cbn. eexists. split; [reflexivity|]. intros (i & sep & d & Bi & N2 & K). destruct i as [|i].
        -- cbn in N2, K. injection N2 as <-. destruct K as [K|K]; auto.
        -- cbn in N2. destruct i; discriminate.
      * left. split; auto. exists 0%nat, (sep_text sp), c2. auto.
    + left. cbn [interleave tuple_items]. split.
      * destruct X as [[-> _]|[-> _]]; reflexivity.
      * exists 0%nat, (sep_text sp), c2. split; auto. split; auto. left. discriminate.
  - assert (Ls : ss = [] \/ List.length cs = S (List.length ss)) by auto.
    destruct (IH (fun d I => Pr d (or_intror I)) ss false s Ls) as [[E (i & sep & d & Bi & N & K)]|(s' & E & N)].
    + left. split; auto. exists (S i), sep, d. split; [apply bad_in_S; auto|]. auto.
    + right. exists s'. split; auto. intros (i & sep & d & Bi & N2 & K). destruct i as [|i].
      * apply bad_in_0 in Bi as (W & B & _). subst w'. rewrite W, B in Bad. discriminate.
      * apply (proj1 (bad_in_S _ _ _ _ _ _)) in Bi. apply N. exists i, sep, d. auto.
Qed.
Lemma sequence_decides u ut s : nth_error (tups G) u = Some ut ->
  (tuple_items G u (iter_sequence ut) false None s = Crash /\ stuck G ut) \/
  (exists s', tuple_items G u (iter_sequence ut) false None s = Ok s' /\ ~ stuck G ut).
Proof.
  intros U. apply items_decide; [|eapply to_seps; apply tuples; exact U].
  intros c I. split; [eapply components; eauto|]. assert (T := to_types _ _ _ (tuples _ _ U) c I).
  assert (Lu : (u < List.length (tups G))%nat) by (apply nth_error_Some; congruence).
  unfold example_fuel. destruct (c_typ c); cbn; try tauto; lia.
Qed.

Lemma bind_err {E A B} (m : res E A) (f : A -> res E B) e : m <> Err e -> (forall a, f a <> Err e) -> bind m f <> Err e.
Proof. destruct m; cbn; try discriminate; auto. intros N _ X. apply N. congruence. Qed.
Lemma example_err n : forall a e, example G n a <> Err e.
Proof.
  induction n as [|n IH]; intros a x; [discriminate|]. rewrite example_S. destruct a as [| | | | |e|u|r|i ms|i lo hi el]; try discriminate; auto.
  - destruct (nth_error (enums G) e) as [en|]; [destruct (en_lits en)|]; discriminate.
  - destruct (nth_error (tups G) u) as [ut|]; [|discriminate]. induction (u_comps ut) as [|c cs IHc]; [discriminate|]. cbn [examples]. apply bind_err; auto.
  - destruct ms; discriminate.
Qed.
Lemma items_err u e l : forall w bad s, tuple_items G u l w bad s <> Err e.
Proof.
  induction l as [|it l IH]; intros w bad s; cbn [tuple_items]; [discriminate|]. destruct bad, it as [c|sp]; auto; try discriminate.
  - apply bind_err; auto. destruct (is_integer (c_typ c)); [discriminate|apply example_err].
  - destruct (is_integer (c_typ c)); auto.
  - destruct (w && bad_sep sp)%bool; auto.
Qed.
Lemma verify_err n : forall a s e, verify_type G n a s <> Err e.
Proof.
  induction n as [|n IH]; intros a s x; [discriminate|]. rewrite verify_type_S.
  assert (All : forall l s, all_of G n l s <> Err x) by (induction l as [|b l IHl]; cbn; [discriminate|]; intros; apply bind_err; auto).
  destruct (ty_in a (checked s)); [discriminate|]. cbn zeta. destruct a as [| | | | |e|u|r|i ms|i lo hi el]; try discriminate.
  - destruct (tup G u); [|discriminate]. apply bind_err; auto. apply items_err.
  - destruct (rec G r); [|discriminate]. auto.
  - auto.
Qed.
Lemma verify_all_err n l : forall s e, verify_all G n l s <> Err e.
Proof. induction l as [|a l IH]; cbn [verify_all]; intros s e; [discriminate|]. apply bind_err; auto. apply verify_err. Qed.

(** The linter raises an exception iff some tuple is stuck. *)
Theorem linter_decides order : program G order ->
  (perform_sanity_checks G order = Crash /\ exists u ut, nth_error (tups G) u = Some ut /\ stuck G ut) \/
  (exists s, perform_sanity_checks G order = Ok s /\ forall u ut, nth_error (tups G) u = Some ut -> ~ stuck G ut).
Proof.
  intros P.
  assert (D : (forall u ut, nth_error (tups G) u = Some ut -> ~ stuck G ut) \/ exists u ut, nth_error (tups G) u = Some ut /\ stuck G ut).
  { assert (K : forall l, incl l (tups G) -> (forall ut, In ut l -> ~ stuck G ut) \/ exists ut, In ut l /\ stuck G ut).
    { induction l as [|ut l IH]; intros Inc; [left; intros ut []|]. destruct IH as [IH|(x & I & X)]; [intros x I; apply Inc; cbn; auto| |right; exists x; cbn; auto].
      destruct (In_nth_error _ _ (Inc ut (or_introl eq_refl))) as [u U].
      destruct (sequence_decides u ut (LState [] [] []) U) as [[_ X]|(s & _ & X)]; [right; exists ut; cbn; auto|].
      left. intros x [<-|I]; auto. }
    destruct (K (tups G) (fun x I => I)) as [K'|(ut & I & X)].
    - left. intros u ut U. apply K'. eapply nth_error_In; eauto.
    - right. destruct (In_nth_error _ _ I) as [u U]. eauto. }
  destruct D as [D|(u & ut & U & X)].
  - right. unfold perform_sanity_checks.
    destruct (verify_all_total G order (universe G order)) as [s E].
    + intros a I. unfold universe. apply in_app_iff. left. apply in_app_iff. auto.
    + apply universe_closed.
    + intros a I. apply universe_reach in I; auto.
      assert (Da : declared G a).
      { destruct I as [I|(c & C & <-)].
        - destruct a; cbn; auto; [apply (pr_tups _ _ P) in I|apply (pr_recs _ _ P) in I]; auto.
        - pose proof (pr_known _ _ P c C). destruct (c_typ c); cbn; auto. }
      split; auto. destruct a as [ | | | | |e|u|r|i ms|i lo hi el]; cbn; auto.
      intros ut U s. destruct (sequence_decides u ut s U) as [[_ X]|(s' & E & _)]; eauto. destruct (D u ut U X).
    + rewrite E. cbn [bind]. apply verify_all_end in E as (R & _ & X & _).
      destruct (abstract_leaves_total G order s) as [s2 E2]; [|eauto].
      intros r I. pose proof I as I'. apply (pr_recs _ _ P) in I'. destruct (nth_error (recs G) r) as [rt|] eqn:Rr; [|congruence].
      exists rt. split; auto. intros Ab. rewrite X. eapply marked_all; eauto; [apply (pr_wf _ _ P)|]. apply R, reach_in. auto.
  - left. split; eauto. assert (F := linter_fuel G tuples order). unfold perform_sanity_checks in *.
    destruct (verify_all _ _ _ _) as [s1| | |] eqn:E1; cbn [bind] in *; auto; try congruence.
    2:{ destruct (verify_all_err _ _ _ _ E1). }
    exfalso. assert (T : through G s1) by (rewrite verify_all_eq in E1; eapply all_through; [apply verify_through|exact E1|]; intros ? ? []).
    apply verify_all_end in E1 as (R & _). destruct (T u ut) as (s2 & E2); auto.
    + apply R, reach_in, (pr_tups _ _ P). congruence.
    + destruct (sequence_decides u ut (LState [] [] []) U) as [[E _]|(s' & _ & N)]; [congruence|auto].
Qed.
End LINT.

(** ** The types that the linter is given *)

(** All declared types *)
Definition everything (G : types) : list ty :=
  map TEnum (seq 0 (List.length (enums G))) ++ map TTup (seq 0 (List.length (tups G))) ++ map TRec (seq 0 (List.length (recs G))).
Definition own_types (d : ntable) : list ty := flat_map (fun x : text * entity => match snd x with N_type a => [a] | _ => [] end) d.
Definition entry_types (pkgs : list ntable) : list ty := flat_map own_types pkgs.
Definition builtin (a : ty) : Prop := match a with TInt | TDec | TBool | TStr | TMarkup => True | _ => False end.
(** Enumerations are declared, and unions have members. *)
Definition settled_type (G : types) (a : ty) : Prop :=
  match a with TEnum e => (e < List.length (enums G))%nat | TUnion _ ms => ms <> [] | _ => True end.
Record catalogue (v : env) : Prop := Catalogue {
  ct_listed : Permutation (entry_types (v_pkgs v)) (everything (v_types v));
  ct_stab : forall k a, In (k, N_type a) (v_stab v) -> builtin a;
  ct_comps : forall ut c, In ut (tups (v_types v)) -> In c (u_comps ut) -> settled_type (v_types v) (c_typ c)
}.
Lemma everything_in G a : In a (everything G) <->
  (exists e, a = TEnum e /\ (e < List.length (enums G))%nat) \/ (exists u, a = TTup u /\ (u < List.length (tups G))%nat) \/
  (exists r, a = TRec r /\ (r < List.length (recs G))%nat).
Proof.
  unfold everything. rewrite !in_app_iff, !in_map_iff. split.
  - intros [(x & <- & I)|[(x & <- & I)|(x & <- & I)]]; apply in_seq in I; [left|right; left|right; right]; exists x; split; auto; lia.
  - intros [(x & -> & L)|[(x & -> & L)|(x & -> & L)]]; [left|right; left|right; right]; exists x; split; auto; apply in_seq; lia.
Qed.
Lemma everything_once G : NoDup (everything G).
Proof.
  assert (K : forall (f : nat -> ty) n, (forall x y, f x = f y -> x = y) -> NoDup (map f (seq 0 n))).
  { intros f n Inj. apply FinFun.Injective_map_NoDup; [exact Inj|apply seq_NoDup]. }
  assert (J : forall A (a b : list A), NoDup a -> NoDup b -> (forall x, In x a -> ~ In x b) -> NoDup (a ++ b)).
  { induction a as [|x a IH]; cbn; auto. intros b Na Nb D. inversion Na; subst. constructor.
    - rewrite in_app_iff. intros [?|?]; auto. eapply D; eauto.
    - apply IH; auto. }
  unfold everything. apply J; [apply K; congruence| |].
  - apply J; try (apply K; congruence). intros x I1 I2. apply in_map_iff in I1 as (y & <- & _). apply in_map_iff in I2 as (z & [=] & _).
  - intros x I1 I2. apply in_map_iff in I1 as (y & <- & _). apply in_app_iff in I2 as [I2|I2]; apply in_map_iff in I2 as (z & [=] & _).
Qed.
Lemma everything_sizes G G' : List.length (recs G') = List.length (recs G) -> List.length (tups G') = List.length (tups G) ->
  List.length (enums G') = List.length (enums G) -> everything G' = everything G.
Proof. unfold everything. intros -> -> ->. auto. Qed.
Lemma entered_types stab pkgs p name a pkgs' : entered stab pkgs p name (N_type a) pkgs' ->
  Permutation (entry_types pkgs') (a :: entry_types pkgs).
Proof.
  intros (d & (x & y & -> & _ & ->) & _). unfold entry_types. rewrite !flat_map_app. cbn [flat_map].
  unfold own_types at 2. rewrite flat_map_app. cbn. fold (own_types d). rewrite <- !app_assoc. cbn.
  apply Permutation_sym. etransitivity; [apply Permutation_middle|]. apply Permutation_app_head. apply Permutation_middle.
Qed.
Lemma seq_snoc {A} (f : nat -> A) n : map f (seq 0 (n + 1)) = map f (seq 0 n) ++ [f n].
Proof. rewrite Nat.add_1_r, seq_S, map_app. auto. Qed.

Section ITEMS.
Variable file : Z.
Variable src : text.
Variable compiles : text -> bool.
Variable matches : text -> text -> option bool.
Variable p : nat.
Variable imports : option (list nat).
Variable lax : bool.
Lemma nth_entry_types q a k pkgs : In (k, N_type a) (nth q pkgs []) -> In a (entry_types pkgs).
Proof.
  intros I. unfold entry_types. apply in_flat_map. exists (nth q pkgs []). split.
  - destruct (nth_in_or_default q pkgs []) as [J|E]; auto. rewrite E in I. destruct I.
  - unfold own_types. apply in_flat_map. exists (k, N_type a). split; auto. cbn. auto.
Qed.
Lemma entry_settled v q k a : catalogue v -> entry (p_symbols (names_in p imports v) q) k (N_type a) -> settled_type (v_types v) a.
Proof.
  intros C E. unfold entry in E. apply t_find_in in E. unfold p_symbols, names_in in E. cbn in E. apply in_app_or in E as [E|E].
  - apply nth_entry_types in E. apply (Permutation_in _ (ct_listed _ C)), everything_in in E as [(e & -> & L)|[(u & -> & _)|(r & -> & _)]]; cbn; auto.
  - apply (ct_stab _ C) in E. destruct a; cbn in *; tauto.
Qed.
Lemma qualified_settled v a tk ts : catalogue v -> qualified (names_in p imports v) (N_type a) tk ts -> settled_type (v_types v) a.
Proof.
  intros C H. inversion H as [e tk' _ [K|[_ K]] _ |e tp dot tk' q _ _ _ _ _ K]; subst.
  - eapply entry_settled; eauto.
  - apply t_find_in in K. apply (ct_stab _ C) in K. destruct a; cbn in *; tauto.
  - eapply entry_settled; eauto.
Qed.
Lemma type_settled v k a ts k' : catalogue v -> type_part lax (names_in p imports v) k a ts k' -> settled_type (v_types v) a.
Proof.
  intros C H. inversion H as [a' tk ts' Q|bra rs ts' ket _ M _ _]; subst.
  - eapply qualified_settled; eauto.
  - cbn. inversion M; discriminate.
Qed.
Lemma field_settled v u k c ts k' : catalogue v -> field_decl lax (names_in p imports v) u k c ts k' -> settled_type (v_types v) (c_typ c).
Proof. intros C H. inversion H; subst. cbn. eapply type_settled; eauto. Qed.
Lemma fields_settled v u k cs seps ts k' : catalogue v -> fields_decl lax (names_in p imports v) u k cs seps ts k' ->
  forall c, In c cs -> settled_type (v_types v) (c_typ c).
Proof.
  intros C H. inversion H as [c tc k1 cs' ts' k2 F P _|c tc k1 cs' ss ts' k2 F P _ _ _]; subst.
  - assert (K : forall c, In c cs' -> settled_type (v_types v) (c_typ c)).
    { clear H F. induction P as [|? ? ? ? ? ? ? F P IH]; intros d []; subst; eauto using field_settled. }
    intros d [<-|I]; eauto using field_settled.
  - assert (K : forall c, In c cs' -> settled_type (v_types v) (c_typ c)).
    { clear H F. induction P as [|? ? ? ? ? ? ? ? ? ? ? _ _ F P IH]; intros d []; subst; eauto using field_settled. }
    intros d [<-|I]; eauto using field_settled.
Qed.
Lemma checks_catalogue a v ts v' : checks_decl file compiles matches p imports lax a v ts v' -> catalogue v -> catalogue v'.
Proof.
  induction 1 as [v|v c tc v1 ts v' _ T _ IH]; auto. intros C. apply IH. destruct C as [Ls St Cm].
  inversion T as [r pk nm pa cs fz fin abs cks l (x & y & E & _ & ->)|u pk nm cs seps cks l (x & y & E & _ & ->)]; subst; constructor; auto;
    try (match goal with |- Permutation _ (everything ?g) =>
      replace (everything g) with (everything (v_types v)); [exact Ls|symmetry; apply everything_sizes; cbn; rewrite ?E, ?app_length; auto] end).
  cbn. intros ut d I J. rewrite E in Cm. apply in_app_or in I as [I|[<-|I]]; try (eapply Cm; [|exact J]; apply in_or_app; cbn; auto; fail).
    cbn in J. apply (Cm (TupType pk nm cs seps cks)); auto. apply in_or_app. cbn. auto.
Qed.
Lemma item_catalogue v ts v' : type_item file src compiles matches p imports lax v ts v' -> catalogue v -> catalogue v'.
Proof.
  intros H C. inversion H as [us w D|us w D|us w D|us w D]; subst.
  - inversion D as [kw name tn bra lits tl ket pkgs _ _ _ _ _ _ _ E]; subst. destruct C as [Ls St Cm]. constructor; cbn; auto.
    + rewrite (entered_types _ _ _ _ _ _ E), Ls. unfold everything. cbn. rewrite app_length. cbn [List.length]. rewrite seq_snoc, <- app_assoc. cbn.
      apply Permutation_middle.
    + intros ut c I J. assert (K := Cm ut c I J). destruct (c_typ c); cbn in *; auto. rewrite app_length. lia.
  - inversion D as [kw name tn bra cs seps us' k' ket pkgs _ _ _ F _ _ _ E]; subst. assert (Fs := fields_settled _ _ _ _ _ _ _ C F).
    destruct C as [Ls St Cm]. constructor; cbn; auto.
    + rewrite (entered_types _ _ _ _ _ _ E), Ls. unfold everything. cbn. rewrite app_length. cbn [List.length]. rewrite seq_snoc, <- app_assoc. cbn.
      etransitivity; [apply Permutation_middle|]. apply Permutation_app_head. apply Permutation_middle.
    + intros ut c I J. apply in_app_or in I as [I|[<-|[]]]; [apply (Cm ut c I J)|apply (Fs c J)].
  - inversion D as [abs fin tm kw name tn parent te inh bra rt tb k' ket pkgs _ _ _ _ _ _ _ E _]; subst. destruct C as [Ls St Cm]. constructor; cbn; auto.
    rewrite (entered_types _ _ _ _ _ _ E), Ls. unfold everything. cbn. rewrite app_length. cbn [List.length]. rewrite seq_snoc, !app_assoc.
    apply Permutation_cons_append.
  - inversion D; subst. eapply checks_catalogue; eauto.
Qed.
End ITEMS.

(** ** Runs *)
(** Files of types, one after the other *)
Inductive chain (compiles : text -> bool) (matches : text -> text -> option bool) (lax : bool) : env -> env -> Prop :=
| chain_end v : chain compiles matches lax v v
| chain_more file src p imports v body v1 v' : type_items file src compiles matches p imports lax v body v1 -> chain compiles matches lax v1 v' ->
    chain compiles matches lax v v'.
Lemma types_chain compiles matches lax names fs v v' : types_of compiles matches lax names fs v v' -> chain compiles matches lax v v'.
Proof. induction 1; econstructor; eauto. Qed.
Lemma types_catalogue compiles matches lax v v' : chain compiles matches lax v v' -> catalogue v ->
  catalogue v' /\ v_stab v' = v_stab v /\ List.length (v_pkgs v') = List.length (v_pkgs v).
Proof.
  assert (It : forall file src p imports w ts w', type_item file src compiles matches p imports lax w ts w' ->
    v_stab w' = v_stab w /\ List.length (v_pkgs w') = List.length (v_pkgs w)).
  { assert (En : forall stab pkgs p name e pkgs', entered stab pkgs p name e pkgs' -> List.length pkgs' = List.length pkgs).
    { intros stab pkgs p name e pkgs' (d & (a & b & -> & _ & ->) & _). rewrite !app_length. auto. }
    intros file src p imports w ts w' H. inversion H as [us x D|us x D|us x D|us x D]; subst.
    1-3: inversion D; subst; cbn; eauto.
    inversion D as [kw tk a bra us ? ket _ _ _ _ _ Cs _]; subst. clear - Cs. induction Cs as [|z c tc z1 ts z' _ T _ [A B]]; auto.
    rewrite A, B. inversion T; auto. }
  induction 1 as [v|file src p imports v body v1 v' I _ IH]; auto. intros C.
  assert (C1 : catalogue v1 /\ v_stab v1 = v_stab v /\ List.length (v_pkgs v1) = List.length (v_pkgs v)).
  { clear IH. revert C. induction I as [|z ts z1 us z' T _ IH]; auto. intros C. destruct (It _ _ _ _ _ _ _ T) as [A B].
    destruct (IH (item_catalogue _ _ _ _ _ _ _ _ _ _ T C)) as (D & E & F). split; auto. split; congruence. }
  destruct C1 as (C1 & A & B). destruct (IH C1) as (D & E & F). split; auto. split; congruence.
Qed.
Lemma start_catalogue names : catalogue (start_env names).
Proof.
  constructor; cbn.
  - replace (entry_types _) with (@nil ty); [reflexivity|]. unfold entry_types. induction names; cbn; auto.
  - intros k a I. unfold package_table in I. cbn in I. repeat destruct I as [I|I]; try discriminate; try (injection I as _ <-; exact Logic.I).
    apply in_combine_r in I. apply in_map_iff in I as (x & [=] & _).
  - intros ut c [].
Qed.
Lemma insert_entry_perm x d : Permutation (insert_entry x d) (x :: d).
Proof. induction d as [|y d IH]; cbn; auto. destruct (SourceMan.text_leb _ _); auto. rewrite IH. apply perm_swap. Qed.
Lemma table_values_perm d : Permutation (table_values d) d.
Proof. induction d as [|x d IH]; cbn; auto. rewrite insert_entry_perm. auto. Qed.
Lemma packages_start names : Permutation (flat_map (fun x : text * entity => match snd x with N_pkg p => [p] | _ => [] end) (table_values (package_table names)))
  (seq 0 (List.length names)).
Proof.
  rewrite (Permutation_flat_map _ (table_values_perm _)). unfold package_table. rewrite flat_map_app. cbn [builtin_table flat_map snd app].
  generalize 0%nat. induction names as [|x l IH]; intros k; cbn; auto.
Qed.
Lemma all_values_perm v names : v_stab v = package_table names -> List.length (v_pkgs v) = List.length names ->
  Permutation (all_values v) (flat_map (map snd) (v_pkgs v)).
Proof.
  intros St Ln. unfold all_values, packages. rewrite St. rewrite (Permutation_flat_map _ (packages_start names)). rewrite <- Ln.
  assert (K : forall l a, Permutation (flat_map (fun p => map snd (table_values (nth p (a ++ l) []))) (seq (List.length a) (List.length l)))
    (flat_map (map snd) l)).
  { induction l as [|d l IH]; intros a; cbn [List.length seq flat_map]; auto. apply Permutation_app.
    - rewrite app_nth2 by auto. rewrite Nat.sub_diag. cbn [nth]. apply Permutation_map, table_values_perm.
    - specialize (IH (a ++ [d])). rewrite <- app_assoc, app_length, Nat.add_1_r in IH. exact IH. }
  apply (K (v_pkgs v) []).
Qed.
Lemma all_types_perm v names : catalogue v -> v_stab v = package_table names -> List.length (v_pkgs v) = List.length names ->
  Permutation (all_types v) (everything (v_types v)).
Proof.
  intros C St Ln. rewrite <- (ct_listed _ C). unfold all_types. rewrite (Permutation_flat_map _ (all_values_perm v names St Ln)).
  unfold entry_types. clear. induction (v_pkgs v) as [|d l IH]; cbn; auto. rewrite flat_map_app. apply Permutation_app; auto.
  unfold own_types. induction d as [|[k e] d IHd]; cbn; auto. destruct e; cbn; auto.
Qed.
Lemma run_program matches v names : catalogue v -> v_stab v = package_table names -> List.length (v_pkgs v) = List.length names ->
  types_ok matches (v_types v) -> program (v_types v) (all_types v).
Proof.
  intros C St Ln Ty. assert (P := all_types_perm v names C St Ln). set (G := v_types v) in *.
  assert (In' : forall a, In a (all_types v) <-> In a (everything G)) by (intros a; split; apply Permutation_in; auto using Permutation_sym).
  constructor.
  - apply (ok_order _ _ Ty).
  - intros c Co. destruct (ok_components _ _ Ty) as [V1 V2].
    assert (V : valid G (c_typ c)) by (destruct Co as [(r & rt & R & I)|(u & ut & U & I)]; eauto).
    destruct (c_typ c); cbn in *; auto; try (apply nth_error_Some; auto). intros m I. apply nth_error_Some. auto.
  - intros u ut U. eapply to_seps. apply (ok_tuples _ _ Ty). exact U.
  - intros r. rewrite In', everything_in, nth_error_Some. split; [intros L; right; right; eauto|].
    intros [(? & [=] & _)|[(? & [=] & _)|(x & [= <-] & L)]]. auto.
  - intros r. rewrite In', everything_in, nth_error_Some. split; [intros L; right; left; eauto|].
    intros [(? & [=] & _)|[(x & [= <-] & L)|(? & [=] & _)]]. auto.
  - intros a I. apply In', everything_in in I as [(x & -> & _)|[(x & -> & _)|(x & -> & _)]]; eauto.
  - eapply Permutation_NoDup; [symmetry; exact P|apply everything_once].
Qed.
Lemma run_components matches v : catalogue v -> types_ok matches (v_types v) ->
  forall u ut c, nth_error (tups (v_types v)) u = Some ut -> In c (u_comps ut) -> proper (v_types v) (c_typ c).
Proof.
  intros C Ty u ut c U I. assert (S := ct_comps _ C ut c (nth_error_In _ _ U) I). assert (V := proj2 (ok_components _ _ Ty) u ut c U I).
  assert (T := to_types _ _ _ (ok_tuples _ _ Ty u ut U) c I). destruct (c_typ c); cbn in *; auto; apply nth_error_Some; auto.
Qed.
Theorem chain_linted compiles matches lax all_names v : chain compiles matches lax (start_env all_names) v ->
  types_ok matches (v_types v) ->
  program (v_types v) (all_types v) /\
  ((perform_sanity_checks (v_types v) (all_types v) = Crash /\ exists u ut, nth_error (tups (v_types v)) u = Some ut /\ stuck (v_types v) ut) \/
   (exists s, perform_sanity_checks (v_types v) (all_types v) = Ok s /\
      forall u ut, nth_error (tups (v_types v)) u = Some ut -> ~ stuck (v_types v) ut)).
Proof.
  intros T Ty. destruct (types_catalogue _ _ _ _ _ T (start_catalogue _)) as (C & St & Ln). cbn in Ln. rewrite map_length in Ln.
  assert (P := run_program matches v all_names C St Ln Ty). split; auto. apply linter_decides; auto.
  - apply (ok_tuples _ _ Ty).
  - apply (run_components matches); auto.
Qed.
Theorem run_linted compiles matches lax names rsl all_names v : types_of compiles matches lax names rsl (start_env all_names) v ->
  types_ok matches (v_types v) ->
  program (v_types v) (all_types v) /\
  ((perform_sanity_checks (v_types v) (all_types v) = Crash /\ exists u ut, nth_error (tups (v_types v)) u = Some ut /\ stuck (v_types v) ut) \/
   (exists s, perform_sanity_checks (v_types v) (all_types v) = Ok s /\
      forall u ut, nth_error (tups (v_types v)) u = Some ut -> ~ stuck (v_types v) ut)).
Proof. intros T. apply (chain_linted compiles matches lax all_names). eapply types_chain; eauto. Qed.
