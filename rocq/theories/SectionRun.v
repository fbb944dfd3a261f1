(** Iteration by section in whole runs. *)
From Coq Require Import Permutation Sorted.
From Verif Require Import Base Lexer LexSpec SymTab Ast Eval ParserBase ExprSyntax ParserValue ValueSyntax ParserDecl DeclSyntax DeclSound Process RunSyntax RunGraph RunSound RunMeaning Sections SectionProofs.
From Verif Require SourceMan SourceManProofs.
From Coq Require Import ZifyBool ZifyNat ZifyN.
Open Scope Z_scope.

(** The outlines of files, one file after the other *)
Inductive outlines (names : ntable) (objs : list object) : nat -> list input_file -> list doc -> nat -> Prop :=
| os_none k : outlines names objs k [] [] k
| os_more f fs name l body p ns k k1 ds k' :
    file_is f name l body -> entry names (tok_text name) (N_pkg p) -> outline (i_id f) objs k body ns k1 ->
    outlines names objs k1 fs ds k' -> outlines names objs k (f :: fs) (Doc (i_id f) p ns :: ds) k'.

(** ** From the files to outlines *)
Definition doc_objects (d : doc) : list nat := flat_map objects_in (d_nodes d).
(** Objects and sections of a document as they are in the symbol table *)
Definition recorded (v : env) (d : doc) : Prop :=
  (forall o path, In (o, path) (flat_map (located []) (d_nodes d)) -> exists ob, nth_error (v_objs v) o = Some ob /\ l_file (o_loc ob) = d_file d /\ nth o (v_secs v) [] = path) /\
  NoDup (flat_map sections_in (d_nodes d)) /\ (forall s, In s (flat_map sections_in (d_nodes d)) -> l_file (fst s) = d_file d).
Definition extends_env (v v' : env) : Prop := (exists obs, v_objs v' = v_objs v ++ obs) /\ (exists ss, v_secs v' = v_secs v ++ ss).
Lemma recorded_extends v v' d : List.length (v_secs v) = List.length (v_objs v) -> extends_env v v' -> recorded v d -> recorded v' d.
Proof.
  intros L [(obs & E) (ss & E')] (A & B). split; auto. intros o path I. destruct (A o path I) as (ob & X & Y & Z). exists ob.
  assert (o < List.length (v_objs v))%nat by (apply nth_error_Some; congruence). rewrite E, E', nth_error_app1, app_nth1 by lia. auto.
Qed.

Lemma combine_in (xs : list (nat * list sect)) k m : map fst xs = seq k m -> forall o path, In (o, path) xs -> (k <= o)%nat /\ nth (o - k) (map snd xs) [] = path /\ (o < k + m)%nat.
Proof.
  revert k m. induction xs as [|[o' p'] xs IH]; intros k m E o path I; [contradiction|]. destruct m as [|m]; [discriminate|]. cbn in E. injection E as -> E.
  destruct I as [I|I].
  - injection I as -> ->. rewrite Nat.sub_diag. cbn. split; auto. split; auto. lia.
  - destruct (IH _ _ E _ _ I) as (A & B & C). split; [lia|]. split; [|lia]. replace (o - k)%nat with (S (o - S k)) by lia. auto.
Qed.

Lemma objects_outlines lax names fs v v' : objects_of lax names fs v v' -> List.length (v_secs v) = List.length (v_objs v) ->
  exists ds, (forall objs, agree objs (v_objs v') -> outlines names objs (List.length (v_objs v)) fs ds (List.length (v_objs v'))) /\
    extends_env v v' /\ List.length (v_secs v') = List.length (v_objs v') /\ v_stab v' = v_stab v /\
    (forall d, In d ds -> recorded v' d) /\
    flat_map doc_objects ds = seq (List.length (v_objs v)) (List.length (v_objs v') - List.length (v_objs v)) /\
    (forall q, table_objects (nth q (v_pkgs v') []) = table_objects (nth q (v_pkgs v) []) ++ flat_map doc_objects (filter (fun d => Nat.eqb (d_pkg d) q) ds)).
Proof.
  induction 1 as [v|f fs name l body p ps v v1 v' Kf Fi En Im It Os IH]; intros L.
  - exists []. split; [constructor|]. split; [split; exists []; rewrite app_nil_r; auto|]. split; auto. split; auto. split; [contradiction|].
    rewrite Nat.sub_diag. split; auto. intros q. cbn. rewrite app_nil_r. auto.
  - apply (proj2 (shapes (i_id f) (i_src f) p (Some ps) lax)) in It as (ns & m & ((obs & Eo & Lo & Fo) & Sv & Tb) & Oo & Ss & Ol).
    assert (Lx : List.length (map snd (flat_map (located []) ns)) = m).
    { rewrite map_length, <- (map_length fst), forest_objects, Oo, seq_length. auto. }
    assert (L1 : List.length (v_secs v1) = List.length (v_objs v1)) by (rewrite Ss, Eo, !app_length, Lx; lia).
    destruct (IH L1) as (ds & Od & [(obs' & X1) (ss' & X2)] & L' & S' & Rd & Fm & Tb').
    exists (Doc (i_id f) p ns :: ds). split; [|split; [|split; [auto|split; [congruence|split; [|split]]]]].
    + intros objs A. econstructor; eauto. apply Ol. rewrite X1 in A. eapply agree_app; eauto.
    + split; [exists (obs ++ obs'); rewrite X1, Eo, app_assoc; auto|]. eexists. rewrite X2, Ss, <- app_assoc. reflexivity.
    + intros d [<-|I]; auto. apply (recorded_extends v1); auto; [split; eauto|]. split; [|split]; cbn [d_nodes d_file].
      * intros o path I. assert (F := forest_objects ns []). rewrite Oo in F. destruct (combine_in _ _ _ F _ _ I) as (A & B & C).
        destruct (nth_error obs (o - List.length (v_objs v))) as [ob|] eqn:Ob; [|apply nth_error_None in Ob; lia].
        exists ob. rewrite Eo, nth_error_app2 by lia. split; auto. split; [apply Fo; eapply nth_error_In; eauto|].
        rewrite Ss, app_nth2 by lia. rewrite L. auto.
      * assert (A : agree (v_objs v1) (v_objs v1)) by (intros k ob E; eauto). apply Ol in A. eapply outline_sections; eauto. eapply file_starts; eauto.
      * assert (A : agree (v_objs v1) (v_objs v1)) by (intros k ob E; eauto). apply Ol in A. apply outline_sections in A as [_ A]; [|eapply file_starts; eauto].
        intros s I. apply A in I as (tk & _ & ->). auto.
    + cbn [flat_map]. rewrite Fm. unfold doc_objects. cbn [d_nodes]. rewrite Oo. rewrite X1, Eo, !app_length, Lo, <- seq_app. f_equal. lia.
    + intros q. rewrite Tb', Tb, <- app_assoc. f_equal. cbn [filter d_pkg]. rewrite (Nat.eqb_sym q p). destruct (Nat.eqb p q); cbn [flat_map app]; auto.
      unfold doc_objects at 2. cbn [d_nodes]. rewrite Oo. auto.
Qed.

(** ** Tables without objects *)
Lemma entered_type stab pkgs p name a pkgs' : entered stab pkgs p name (N_type a) pkgs' -> map table_objects pkgs' = map table_objects pkgs.
Proof.
  intros (d & (x & y & -> & _ & ->) & _). rewrite !map_app. cbn [map]. rewrite table_objects_app. cbn. rewrite app_nil_r. auto.
Qed.
Lemma items_tables file src compiles matches p imports lax v ts v' : type_items file src compiles matches p imports lax v ts v' ->
  map table_objects (v_pkgs v') = map table_objects (v_pkgs v) /\ v_secs v' = v_secs v /\ v_stab v' = v_stab v.
Proof.
  induction 1 as [v|v ts v1 us v' I _ IH]; auto. destruct IH as (-> & -> & ->). destruct I as [ts v1 E|ts v1 E|ts v1 E|ts v1 E]; destruct E; cbn [v_pkgs v_secs v_stab]; try (split; [|auto]; eapply entered_type; eauto; fail).
  match goal with H : checks_decl _ _ _ _ _ _ _ _ _ _ |- _ => revert H end. clear. induction 1 as [v|v c tc v1 ts v' _ C _ IH]; auto. destruct IH as (-> & -> & ->). destruct C; auto.
Qed.
Lemma files_tables compiles matches lax names fs v v' : types_of compiles matches lax names fs v v' ->
  map table_objects (v_pkgs v') = map table_objects (v_pkgs v) /\ v_secs v' = v_secs v /\ v_stab v' = v_stab v.
Proof. induction 1 as [v|f fs name l body p ps v v1 v' _ _ _ _ I _ IH]; auto. destruct IH as (-> & -> & ->). eapply items_tables; eauto. Qed.

(** ** The order of iteration *)
Definition by_package (n : nat) (ds : list doc) : list doc := flat_map (fun p => filter (fun d => Nat.eqb (d_pkg d) p) ds) (seq 0 n).
Lemma by_package_in n ds d : In d (by_package n ds) <-> In d ds /\ (d_pkg d < n)%nat.
Proof.
  unfold by_package. rewrite in_flat_map. split.
  - intros (p & I & J). apply filter_In in J as [J E]. apply in_seq in I. split; auto. lia.
  - intros [I L]. exists (d_pkg d). split; [apply in_seq; lia|]. apply filter_In. split; auto. apply Nat.eqb_refl.
Qed.
Lemma filter_map_nodup (f : doc -> bool) ds : NoDup (map d_file ds) -> NoDup (map d_file (filter f ds)).
Proof.
  induction ds as [|x ds IH]; cbn; intros N; [constructor|]. inversion N; subst. destruct (f x); cbn; auto. constructor; auto.
  intros I. apply in_map_iff in I as (y & E & J). apply filter_In in J as [J _]. apply H1. rewrite <- E. apply in_map. auto.
Qed.
Lemma file_unique ds d d' : NoDup (map d_file ds) -> In d ds -> In d' ds -> d_file d = d_file d' -> d = d'.
Proof.
  induction ds as [|x ds IH]; cbn; intros N I J E; [contradiction|]. inversion N; subst.
  destruct I as [<-|I], J as [<-|J]; auto.
  - exfalso. apply H1. rewrite E. apply in_map. auto.
  - exfalso. apply H1. rewrite <- E. apply in_map. auto.
Qed.
Lemma by_package_nodup n ds : NoDup (map d_file ds) -> NoDup (map d_file (by_package n ds)).
Proof.
  intros N. unfold by_package. assert (Q := seq_NoDup n 0). revert Q. generalize (seq 0 n). induction l as [|p l IH]; intros Q; cbn; [constructor|]. inversion Q; subst.
  rewrite map_app. apply SourceManProofs.NoDup_app_iff. split; [apply filter_map_nodup; auto|]. split; [auto|].
  intros x I J. apply in_map_iff in I as (d & Ed & I). apply in_map_iff in J as (d' & Ed' & J). apply in_flat_map in J as (q & Iq & J).
  apply filter_In in I as [I E]. apply filter_In in J as [J E']. assert (d = d') by (eapply file_unique; eauto; congruence). subst d'.
  apply Nat.eqb_eq in E, E'. subst. contradiction.
Qed.
Lemma by_package_perm n ds : NoDup (map d_file ds) -> (forall d, In d ds -> (d_pkg d < n)%nat) -> Permutation (by_package n ds) ds.
Proof.
  intros N L. apply NoDup_Permutation.
  - eapply NoDup_map_inv. apply by_package_nodup. auto.
  - eapply NoDup_map_inv. eauto.
  - intros d. rewrite by_package_in. split; [tauto|auto].
Qed.
Lemma iter_order v names ds : v_stab v = package_table names ->
  (forall q, table_objects (nth q (v_pkgs v) []) = flat_map doc_objects (filter (fun d => Nat.eqb (d_pkg d) q) ds)) ->
  iter_record_objects v = flat_map doc_objects (by_package (List.length names) ds).
Proof.
  intros S T. unfold iter_record_objects. rewrite S. unfold package_table. rewrite flat_map_app. cbn [builtin_table flat_map snd app].
  unfold by_package. clear S. generalize 0%nat. induction names as [|k names IH]; intros i; cbn; auto. rewrite T, flat_map_app. f_equal. auto.
Qed.

(** ** Visiting documents *)
Lemma visit_app v xs : forall ys vi, visit_all v (xs ++ ys) vi = let '(a, v1) := visit_all v xs vi in let '(b, v2) := visit_all v ys v1 in (a ++ b, v2).
Proof.
  induction xs as [|o xs IH]; intros ys vi; cbn; [destruct (visit_all v ys vi); auto|]. destruct (nth_error (v_objs v) o) as [ob|]; [|apply IH].
  destruct (visit _ _ _ _) as [a v1]. rewrite IH. destruct (visit_all v xs v1) as [b v2]. destruct (visit_all v ys v2) as [c v3]. rewrite app_assoc. auto.
Qed.
Definition fits_table (v : env) (f : Z) (xs : list (nat * list sect)) : Prop :=
  forall o path, In (o, path) xs -> exists ob, nth_error (v_objs v) o = Some ob /\ l_file (o_loc ob) = f /\ nth o (v_secs v) [] = path.
Lemma visit_known v f xs : forall files seen, fits_table v f xs -> In f files ->
  visit_all v (map fst xs) (Visited files seen) = (fst (walk xs seen), Visited files (snd (walk xs seen))).
Proof.
  induction xs as [|[o path] xs IH]; intros files seen F I; cbn; auto. destruct (F o path (or_introl eq_refl)) as (ob & E & El & Es). rewrite E. unfold visit. cbn [vi_files vi_sections].
  rewrite El, Es. replace (existsb (Z.eqb f) files) with true by (symmetry; apply existsb_exists; exists f; split; auto; apply Z.eqb_refl). cbn [negb].
  destruct (enter_sections 0 path seen) as [a s1]. rewrite IH by (auto; intros o' p' J; apply F; cbn; auto). destruct (walk xs s1) as [b s2]. cbn. rewrite <- app_assoc. auto.
Qed.
Lemma visit_new v f xs files seen : fits_table v f xs -> ~ In f files -> xs <> [] ->
  visit_all v (map fst xs) (Visited files seen) = (Ev_file f :: fst (walk xs seen), Visited (files ++ [f]) (snd (walk xs seen))).
Proof.
  destruct xs as [|[o path] xs]; intros F I N; [contradiction|]. cbn. destruct (F o path (or_introl eq_refl)) as (ob & E & El & Es). rewrite E. unfold visit. cbn [vi_files vi_sections].
  rewrite El, Es. assert (X : existsb (Z.eqb f) files = false). { destruct (existsb _ _) eqn:X; auto. apply existsb_exists in X as (y & J & Y). apply Z.eqb_eq in Y. subst. contradiction. }
  rewrite X. cbn [negb]. destruct (enter_sections 0 path seen) as [a s1]. rewrite (visit_known v f) by (try (intros o' p' J; apply F; cbn; auto); apply in_app_iff; cbn; auto).
  destruct (walk xs s1) as [b s2]. cbn. rewrite <- app_assoc. auto.
Qed.
Lemma visit_docs v ds : (forall d, In d ds -> recorded v d) -> NoDup (map d_file ds) -> forall files seen,
  (forall d, In d ds -> ~ In (d_file d) files /\ forall s, In s seen -> l_file (fst s) <> d_file d) ->
  exists files' seen', visit_all v (flat_map doc_objects ds) (Visited files seen) = (flat_map doc_listing ds, Visited files' seen').
Proof.
  induction ds as [|d ds IH]; intros R N files seen D; cbn; [eauto|]. inversion N as [|? ? Nd N']; subst. rewrite visit_app.
  destruct (R d (or_introl eq_refl)) as (Rl & Rn & Rf). destruct (D d (or_introl eq_refl)) as [Df Ds].
  destruct (doc_walk (d_nodes d) seen Rn) as (more & W & Im). { intros s I J. apply (Ds s J). auto. }
  assert (Fo := forest_objects (d_nodes d) []). unfold doc_listing, doc_objects at 1. rewrite <- Fo.
  destruct (flat_map (located []) (d_nodes d)) as [|x xs] eqn:Ex.
  - cbn. destruct (IH (fun d I => R d (or_intror I)) N' files seen) as (f' & s' & E).
    + intros d' I. apply D. cbn. auto.
    + rewrite E. eauto.
  - rewrite (visit_new v (d_file d)) by (auto; discriminate). rewrite W. cbn [fst snd map].
    destruct (IH (fun d I => R d (or_intror I)) N' (files ++ [d_file d]) (seen ++ more)) as (f' & s' & E).
    + intros d' I. destruct (D d' (or_intror I)) as [A B]. split.
      * rewrite in_app_iff. intros [J|[J|[]]]; [contradiction|]. apply Nd. rewrite J. apply in_map. auto.
      * intros s J. apply in_app_iff in J as [J|J]; [auto|]. apply Im, Rf in J. intros X. apply Nd. rewrite <- J, X. apply in_map. auto.
    + rewrite E. cbn [map] in *. exists f', s'. auto.
Qed.

(** ** Runs *)
Lemma outlines_files names objs k fs ds k' : outlines names objs k fs ds k' -> map d_file ds = map i_id fs /\ forall d, In d ds -> exists name, entry names name (N_pkg (d_pkg d)).
Proof.
  induction 1 as [k|f fs name l body p ns k k1 ds k' Fi En O Os [A B]]; cbn; [split; auto; contradiction|]. split; [congruence|]. intros d [<-|I]; cbn; eauto.
Qed.
Section RUN.
Variable compiles : text -> bool.
Variable matches : text -> text -> option bool.
Variable pick : list SourceMan.node -> nat.
Variable lint recovery : bool.
Hypothesis regex : forall p x, compiles p = true -> matches p x <> None.
Notation process := (process compiles matches pick lint recovery).

Theorem run_sections fs v ms : process fs = Ok (Some v, ms) -> NoDup (map i_id fs) ->
  exists trlc names ds, (forall f, In f trlc -> In f fs /\ i_kind f = SourceMan.TRLC /\ file_needed fs f) /\ StronglySorted named_before trlc /\
    v_stab v = package_table names /\ outlines (v_stab v) (v_objs v) 0 trlc ds (List.length (v_objs v)) /\
    fst (iter_record_objects_by_section v fresh_table) = flat_map doc_listing (by_package (List.length names) ds) /\
    Permutation (iter_record_objects v) (seq 0 (List.length (v_objs v))).
Proof.
  intros H Nf. apply run_accepted in H as (bad & idle & rsl & trlc & rns & more & v1 & v2 & A); auto.
  destruct A as [Af Ab Ai Ar At Ao As An Aa Ad A1 Ty Ob (Lt & Ls & Lb & Lp & Lo)].
  destruct (files_tables _ _ _ _ _ _ _ Ty) as (T1 & S1 & B1). assert (O1 := files_objects _ _ _ _ _ _ _ Ty). cbn [start_env v_pkgs v_secs v_stab v_objs] in T1, S1, B1, O1.
  destruct (objects_outlines _ _ _ _ _ Ob) as (ds & Od & Ex & Le & Sb & Rd & Fm & Tb); [rewrite S1, O1; auto|].
  rewrite O1 in Od, Fm. cbn [List.length] in Od, Fm. rewrite Nat.sub_0_r in Fm.
  assert (Ll : List.length (v_objs v) = List.length (v_objs v2)) by (rewrite <- (map_length bare_object), Lo, map_length; auto).
  assert (Ag : agree (v_objs v) (v_objs v2)).
  { intros k ob E. assert (X := f_equal (fun l => nth_error l k) Lo). cbn in X. rewrite !nth_error_map, E in X. cbn in X.
    destruct (nth_error (v_objs v) k) as [ob'|]; [|discriminate]. cbn in X. injection X as X1 X2 X3 _ _. eauto. }
  assert (Ou := Od _ Ag). rewrite <- Ll in Ou. destruct (outlines_files _ _ _ _ _ _ Ou) as [Df Dn].
  assert (Nd : NoDup (map d_file ds)).
  { rewrite Df. apply (Permutation_map i_id) in Af. apply (Permutation_NoDup Af) in Nf. rewrite !map_app in Nf.
    apply NoDup_app_r in Nf. apply NoDup_app_r in Nf. apply NoDup_app_r in Nf. auto. }
  assert (Sv : v_stab v = package_table (rns ++ more)) by congruence.
  assert (Tv : forall q, table_objects (nth q (v_pkgs v) []) = flat_map doc_objects (filter (fun d => Nat.eqb (d_pkg d) q) ds)).
  { intros q. rewrite Lp, Tb. assert (X := f_equal (fun l => nth q l []) T1). cbn in X. rewrite map_map in X. cbn in X.
    change (@nil nat) with (table_objects []) in X. rewrite map_nth in X. rewrite X. clear. set (l := map _ _).
    assert (Y : nth q l (table_objects []) = []). { subst l. generalize (rns ++ more). clear. induction q as [|q IH]; intros [|k l]; cbn; auto. }
    rewrite Y. auto. }
  assert (It := iter_order _ _ _ Sv Tv).
  exists trlc, (rns ++ more), ds. split; [|split; [auto|split; [auto|split; [rewrite Sv; auto|split]]]].
  - intros f I. split; [|apply At; auto]. eapply Permutation_in; [symmetry; exact Af|]. rewrite !in_app_iff. auto.
  - unfold iter_record_objects_by_section, fresh_table. rewrite It.
    destruct (visit_docs v (by_package (List.length (rns ++ more)) ds)) with (files := @nil Z) (seen := @nil sect) as (f' & s' & E).
    + intros d I. apply by_package_in in I as [I _]. destruct (Rd d I) as (R1 & R2). split; auto. intros o path J. destruct (R1 o path J) as (ob & E & El & Es).
      destruct (Ag _ _ E) as (ob' & E' & _ & Ml). exists ob'. rewrite Ls, Ml. auto.
    + apply by_package_nodup. auto.
    + intros d I. split; auto.
    + rewrite E. auto.
  - rewrite It, Ll, <- Fm. apply Permutation_flat_map. apply by_package_perm; auto. intros d I. destruct (Dn d I) as (k & Ek).
    apply package_entry in Ek; [|exact Ad]. apply nth_error_Some. congruence.
Qed.
End RUN.

(** ** Iterating again *)
Definition known_to (v : env) (vi : visited) (o : nat) : Prop :=
  forall ob, nth_error (v_objs v) o = Some ob -> In (l_file (o_loc ob)) (vi_files vi) /\ incl (nth o (v_secs v) []) (vi_sections vi).
Definition more_visited (a b : visited) : Prop := incl (vi_files a) (vi_files b) /\ incl (vi_sections a) (vi_sections b).
Lemma more_trans a b c : more_visited a b -> more_visited b c -> more_visited a c.
Proof. intros [A B] [C D]. split; eapply incl_tran; eauto. Qed.
Lemma known_more v a b o : more_visited a b -> known_to v a o -> known_to v b o.
Proof. intros [A B] K ob E. destruct (K ob E) as [X Y]. split; auto. eapply incl_tran; eauto. Qed.
Lemma enter_grows path : forall k seen, incl seen (snd (enter_sections k path seen)) /\ incl path (snd (enter_sections k path seen)).
Proof.
  induction path as [|s path IH]; intros k seen; cbn; [split; [apply incl_refl|apply incl_nil_l]|].
  destruct (existsb (same_section s) seen) eqn:E.
  - destruct (IH (S k) seen) as [A B]. split; auto. apply incl_cons; auto. apply A. apply seen_in. auto.
  - destruct (IH (S k) (seen ++ [s])) as [A B]. destruct (enter_sections (S k) path (seen ++ [s])) as [e s']. cbn in *. apply incl_app_inv in A as [A1 A2].
    split; auto. apply incl_cons; auto. apply A2. cbn. auto.
Qed.
Lemma visit_grows o f path vi : more_visited vi (snd (visit o f path vi)) /\ In f (vi_files (snd (visit o f path vi))) /\ incl path (vi_sections (snd (visit o f path vi))).
Proof.
  unfold visit. destruct (enter_grows path 0 (vi_sections vi)) as [A B]. destruct (enter_sections 0 path (vi_sections vi)) as [e s]. cbn in *.
  destruct (existsb (Z.eqb f) (vi_files vi)) eqn:E; cbn.
  - split; [split; [apply incl_refl|auto]|]. split; auto. apply existsb_exists in E as (x & I & X). apply Z.eqb_eq in X. congruence.
  - split; [split; [apply incl_appl; apply incl_refl|auto]|]. split; auto. apply in_app_iff. cbn. auto.
Qed.
Lemma visit_all_known v os : forall vi, more_visited vi (snd (visit_all v os vi)) /\ forall o, In o os -> known_to v (snd (visit_all v os vi)) o.
Proof.
  induction os as [|o os IH]; intros vi; cbn; [split; [split; apply incl_refl|contradiction]|].
  destruct (nth_error (v_objs v) o) as [ob|] eqn:E.
  - destruct (visit_grows o (l_file (o_loc ob)) (nth o (v_secs v) []) vi) as (A & B & C). destruct (visit _ _ _ _) as [e v1]. cbn in A, B, C.
    destruct (IH v1) as [D F]. destruct (visit_all v os v1) as [e' v2]. cbn in *. split; [eapply more_trans; eauto|].
    intros o' [<-|I]; auto. eapply known_more; [exact D|]. intros ob' E'. assert (ob' = ob) by congruence. subst. auto.
  - destruct (IH vi) as [D F]. split; auto. intros o' [<-|I]; auto. intros ob' E'. congruence.
Qed.
Lemma visit_all_again v os : forall vi, (forall o, In o os -> known_to v vi o /\ nth_error (v_objs v) o <> None) ->
  visit_all v os vi = (map (fun o => Ev_object o (List.length (nth o (v_secs v) []) - 1)) os, vi).
Proof.
  induction os as [|o os IH]; intros vi K; cbn; auto. destruct (K o (or_introl eq_refl)) as [Ko No].
  destruct (nth_error (v_objs v) o) as [ob|] eqn:E; [|contradiction]. destruct (Ko ob E) as [A B]. unfold visit.
  replace (existsb (Z.eqb (l_file (o_loc ob))) (vi_files vi)) with true by (symmetry; apply existsb_exists; eexists; split; [exact A|apply Z.eqb_refl]).
  rewrite <- (app_nil_r (nth o (v_secs v) [])) at 1. rewrite (enter_done _ 0 [] _ B). cbn [negb enter_sections app]. destruct vi as [fi se]. cbn [vi_files vi_sections].
  rewrite IH by (intros; apply K; cbn; auto). auto.
Qed.
