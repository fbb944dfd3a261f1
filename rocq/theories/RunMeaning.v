(** Objects of an accepted run are told apart by the values they store, and
    their checks hold as the manual defines it. *)
From Coq Require Import Relations.
From Verif Require Import Base Lexer SymTab Ast Eval Typing TypesProofs Soundness EvalSpec EvalSpecProofs EvalCorrect ParserBase ParserExpr ParserProofs ExprTyping ValueSyntax ValueTyping
  ParserDecl ParserFile Resolve Growth DeclInv DeclSyntax Process ProcessInv ProcessRun RunSyntax DeclSound RunSound RunComplete CheckCrash.
From Verif Require Checks ChecksProofs SourceMan LintRun RunLint RunValid.
From Coq Require Import ZifyBool ZifyNat ZifyN.

(** ** Numbers of stored values *)

(** The values of frozen components have numbers below [n]. *)
Definition frozen_below (G : types) (n : nat) : Prop :=
  forall rt k f, In rt (recs G) -> In (k, f) (r_frozen rt) -> (fst f < n)%nat.
Lemma frozen_mono G n m : (n <= m)%nat -> frozen_below G n -> frozen_below G m.
Proof. intros L F rt k f I J. specialize (F _ _ _ I J). lia. Qed.
Lemma frozen_freezes G n r k f : frozen_below G n -> freezes G r k f -> (fst f < n)%nat.
Proof.
  intros F (q & _ & I). unfold own_frozen in I. destruct (nth_error (recs G) q) as [rt|] eqn:E; [|destruct I]. apply (F rt k); auto. eapply nth_error_In; eauto.
Qed.
Lemma frozen_recs G G' n : recs G' = recs G -> frozen_below G n -> frozen_below G' n.
Proof. unfold frozen_below. intros ->. auto. Qed.

Section TYPES.
Variable file : Z.
Variable src : text.
Variable compiles : text -> bool.
Variable matches : text -> text -> option bool.
Variable p : nat.
Variable imports : option (list nat).
Variable lax : bool.
Lemma type_counts N k a ts k' : type_part lax N k a ts k' -> (k <= k')%nat.
Proof. destruct 1; lia. Qed.
Lemma array_counts k a b ts k' : array_part k a b ts k' -> (k <= k')%nat.
Proof. destruct 1; lia. Qed.
Lemma field_counts N u k c ts k' : field_decl lax N u k c ts k' -> (k <= k')%nat.
Proof. destruct 1. eapply type_counts; eauto. Qed.
Lemma plain_counts N u k cs ts k' : plain_fields lax N u k cs ts k' -> (k <= k')%nat.
Proof. induction 1 as [|k c tc k1 cs ts k' H _ IH]; auto. apply field_counts in H. lia. Qed.
Lemma separated_counts N u k cs seps ts k' : separated_fields lax N u k cs seps ts k' -> (k <= k')%nat.
Proof. induction 1 as [|k kw sep tk c tc k1 cs seps ts k' _ _ H _ IH]; auto. apply field_counts in H. lia. Qed.
Lemma fields_counts N u k cs seps ts k' : fields_decl lax N u k cs seps ts k' -> (k <= k')%nat.
Proof.
  destruct 1 as [c tc k1 cs ts k' H P _|c tc k1 cs seps ts k' H P _ _ _]; apply field_counts in H; [apply plain_counts in P|apply separated_counts in P]; lia.
Qed.
Lemma body_counts v rt k ts rt' k' : body_decl file src p imports lax v rt k ts rt' k' ->
  (forall c f, In (c, f) (r_frozen rt) -> (fst f < k)%nat) -> (k <= k')%nat /\ forall c f, In (c, f) (r_frozen rt') -> (fst f < k')%nat.
Proof.
  induction 1 as [rt k|pk nm pa cs fz abs cks k name tn opt to a ta k1 b tb k2 ts rt' k' _ _ T A _ _ IH|pk nm pa cs fz fin abs cks k kw tk eq c x tx ns ts rt' k' _ _ _ _ _ _ _ _ _ IH];
    intros F; auto.
  - apply type_counts in T. apply array_counts in A. destruct IH as [L F']; [intros c f I; cbn in *; specialize (F _ _ I); lia|]. split; auto. lia.
  - destruct IH as [L F']; [|split; auto; lia]. intros d f I. cbn in *. apply in_app_or in I as [I|[[= <- <-]|[]]]; [specialize (F _ _ I); lia|cbn; lia].
Qed.
Lemma checked_counts v c a v' : checked_type v c a v' -> frozen_below (v_types v) (v_next v) -> frozen_below (v_types v') (v_next v') /\ v_next v' = v_next v.
Proof.
  destruct 1 as [r pk nm pa cs fz fin abs cks l (x & y & E & _ & ->)|u pk nm cs seps cks l _]; cbn; intros F; split; auto.
  intros rt k f I J. cbn in I. apply in_app_or in I as [I|[<-|I]].
  - apply (F rt k); auto. rewrite E. apply in_or_app. auto.
  - cbn in J. apply (F (RecType pk nm pa cs fz fin abs cks) k); auto. rewrite E. apply in_or_app. right. left. auto.
  - apply (F rt k); auto. rewrite E. apply in_or_app. right. right. auto.
Qed.
Lemma checks_counts a v ts v' : checks_decl file compiles matches p imports lax a v ts v' -> frozen_below (v_types v) (v_next v) -> frozen_below (v_types v') (v_next v').
Proof. induction 1 as [v|v c tc v1 ts v' _ C _ IH]; auto. intros F. apply IH. eapply checked_counts; eauto. Qed.
Lemma item_counts v ts v' : type_item file src compiles matches p imports lax v ts v' -> frozen_below (v_types v) (v_next v) -> frozen_below (v_types v') (v_next v').
Proof.
  destruct 1 as [ts v' E|ts v' E|ts v' E|ts v' E]; intros F; destruct E; cbn in *.
  - eapply frozen_recs; [|exact F]. auto.
  - match goal with H : fields_decl _ _ _ _ _ _ _ _ |- _ => apply fields_counts in H; eapply frozen_mono; [exact H|] end. eapply frozen_recs; [|exact F]. auto.
  - match goal with H : body_decl _ _ _ _ _ _ _ _ _ _ _ |- _ => apply body_counts in H as [L B]; [|intros ? ? []] end.
    intros rt0 k f I J. cbn in I. apply in_app_or in I as [I|[<-|[]]]; [specialize (F _ _ _ I J); cbn in L; lia|]. cbn in J. eauto.
  - eapply checks_counts; eauto.
Qed.
Lemma items_counts v ts v' : type_items file src compiles matches p imports lax v ts v' -> frozen_below (v_types v) (v_next v) -> frozen_below (v_types v') (v_next v').
Proof. induction 1 as [v|v ts v1 us v' I _ IH]; auto. intros F. apply IH. eapply item_counts; eauto. Qed.
End TYPES.
Lemma files_counts compiles matches lax names fs v v' : types_of compiles matches lax names fs v v' -> frozen_below (v_types v) (v_next v) -> frozen_below (v_types v') (v_next v').
Proof. induction 1 as [v|f fs name l body p ps v v1 v' _ _ _ _ I _ IH]; auto. intros F. apply IH. eapply items_counts; eauto. Qed.

(** ** Objects *)

(** [b] is the first number that is not used for types. *)
Definition stored (b : nat) (v : env) (ob : object) (k : text) (i : nat) : Prop :=
  ((i < b)%nat /\ exists f, freezes (v_types v) (o_typ ob) k f) \/ (b <= i < v_next v)%nat.
Record apart (b : nat) (v : env) : Prop := Apart {
  ap_frozen : frozen_below (v_types v) b;
  ap_next : (b <= v_next v)%nat;
  ap_stored : forall ob k f, In ob (v_objs v) -> In (k, f) (o_fields ob) -> stored b v ob k (fst f);
  ap_own : forall o o' ob ob' k k' f f', nth_error (v_objs v) o = Some ob -> nth_error (v_objs v) o' = Some ob' ->
    In (k, f) (o_fields ob) -> In (k', f') (o_fields ob') -> fst f = fst f' -> o <> o' -> (fst f < b)%nat
}.
Section OBJECTS.
Variable file : Z.
Variable src : text.
Variable p : nat.
Variable imports : option (list nat).
Variable lax : bool.
Lemma assigns_counts v ob id0 cs g k ts g' k' : assigns file src p imports lax v ob id0 cs g k ts g' k' ->
  forall m, (m <= k)%nat -> (forall c f, In (c, f) g -> (m <= fst f < k)%nat) -> (k <= k')%nat /\ forall c f, In (c, f) g' -> (m <= fst f < k')%nat.
Proof.
  induction 1 as [g k|g k tk eq c x tx ns ts g' k' fs _ _ _ _ _ _ _ _ _ _ IH]; intros m L F; auto.
  destruct (IH m) as [L' F']; [lia| |split; [lia|auto]]. intros d f I. apply in_app_or in I as [I|[[= <- <-]|[]]]; [specialize (F _ _ I); lia|cbn; lia].
Qed.
Lemma finished_counts G r id l g cs fs b n n' : finished G r id l g cs fs -> frozen_below G b -> (b <= n)%nat -> (n <= id)%nat -> (id + List.length cs <= n')%nat ->
  (forall c f, In (c, f) g -> (n <= fst f < n')%nat) ->
  forall k f, In (k, f) fs -> ((fst f < b)%nat /\ exists f, freezes G r k f) \/ (n <= fst f < n')%nat.
Proof.
  intros H Fb Lb. induction H as [id l g|id l g c cs f fs I _ IH|id l g c cs f fs _ Fr _ IH|id l g c cs fs _ _ _ _ IH]; intros Li Ln Fg k f0 J; cbn in *.
  - destruct J.
  - destruct J as [[= <- <-]|J]; [right; eauto|]. apply IH; auto; lia.
  - destruct J as [[= <- <-]|J]; [|apply IH; auto; lia]. left. split; eauto. eapply frozen_freezes; eauto.
  - destruct J as [[= <- <-]|J]; [right; cbn; lia|]. apply IH; auto; lia.
Qed.
Lemma object_apart b path v ts v' : object_decl file src p imports lax path v ts v' -> apart b v -> apart b v'.
Proof.
  destruct 1 as [r rt tk tq name bra cs g ts k' ket fs pkgs _ _ _ _ _ _ _ _ As Fin]. intros [Af An Ast Ao]. cbn in *.
  destruct (assigns_counts _ _ _ _ _ _ _ _ _ As (v_next v)) as [L Fg]; [lia|intros ? ? []|].
  assert (New : forall k f, In (k, f) fs -> ((fst f < b)%nat /\ exists f, freezes (v_types v) r k f) \/ (v_next v <= fst f < k')%nat).
  { eapply (finished_counts _ _ _ _ _ _ _ b (v_next v) k'); eauto; lia. }
  constructor; cbn; auto; [lia| |].
  - intros ob k f I J. unfold stored. cbn. apply in_app_or in I as [I|[<-|[]]].
    + destruct (Ast _ _ _ I J) as [X|X]; [left; auto|right; lia].
    + cbn in *. destruct (New _ _ J) as [X|X]; [left; auto|right; lia].
  - assert (Old : forall o ob, nth_error (v_objs v ++ [Object p (tok_text name) (tok_loc file name) r fs]) o = Some ob ->
      nth_error (v_objs v) o = Some ob \/ (o = List.length (v_objs v) /\ o_fields ob = fs)).
    { intros o ob E. destruct (Nat.lt_ge_cases o (List.length (v_objs v))) as [X|X]; [rewrite nth_error_app1 in E; auto|].
      rewrite nth_error_app2 in E by auto. destruct (o - List.length (v_objs v))%nat as [|n] eqn:D; cbn in E; [|destruct n; discriminate].
      right. split; [lia|]. injection E as <-. auto. }
    assert (Lt : forall o ob k f, nth_error (v_objs v) o = Some ob -> In (k, f) (o_fields ob) -> (fst f < v_next v)%nat).
    { intros o ob k f E J. apply nth_error_In in E. destruct (Ast _ _ _ E J) as [[X _]|X]; lia. }
    intros o o' ob ob' k c f f' E E' I I' Ef Ne.
    apply Old in E as [E|[-> Fo]], E' as [E'|[-> Fo']]; [eauto| | |congruence].
    + rewrite Fo' in I'. assert (X := Lt _ _ _ _ E I). destruct (New _ _ I') as [[Y _]|Y]; lia.
    + rewrite Fo in I. assert (X := Lt _ _ _ _ E' I'). destruct (New _ _ I) as [[Y _]|Y]; lia.
Qed.
Lemma items_apart b :
  (forall path v ts v', object_item file src p imports lax path v ts v' -> apart b v -> apart b v') /\
  (forall path v ts v', object_items file src p imports lax path v ts v' -> apart b v -> apart b v').
Proof.
  assert (B : forall path v ts v', object_items file src p imports lax path v ts v' -> apart b v -> apart b v').
  { apply (ois_mind file src p imports lax (fun _ v _ v' => apart b v -> apart b v') (fun _ v _ v' => apart b v -> apart b v')); eauto using object_apart. }
  split; auto. destruct 1; eauto using object_apart.
Qed.
End OBJECTS.
Lemma files_apart b lax names fs v v' : objects_of lax names fs v v' -> apart b v -> apart b v'.
Proof. induction 1 as [v|f fs name l body p ps v v1 v' _ _ _ _ I _ IH]; auto. intros A. apply IH. eapply items_apart; eauto. Qed.

(** ** Runs *)
Lemma items_objects file src compiles matches p imports lax v ts v' : type_items file src compiles matches p imports lax v ts v' -> v_objs v' = v_objs v.
Proof.
  induction 1 as [v|v ts v1 us v' I _ IH]; auto. rewrite IH. destruct I as [ts v1 E|ts v1 E|ts v1 E|ts v1 E]; destruct E; auto.
  match goal with H : checks_decl _ _ _ _ _ _ _ _ _ _ |- _ => revert H end. clear. induction 1 as [v|v c tc v1 ts v' _ C _ IH]; auto. rewrite IH. destruct C; auto.
Qed.
Lemma files_objects compiles matches lax names fs v v' : types_of compiles matches lax names fs v v' -> v_objs v' = v_objs v.
Proof. induction 1 as [v|f fs name l body p ps v v1 v' _ _ _ _ I _ IH]; auto. rewrite IH. eapply items_objects; eauto. Qed.
Lemma bare_fields ob ob' : bare_object ob' = bare_object ob -> o_typ ob' = o_typ ob /\
  forall k f, In (k, f) (o_fields ob') -> exists f', In (k, f') (o_fields ob) /\ fst f' = fst f.
Proof.
  intros E. injection E as _ _ _ T F. split; auto. revert F. generalize (o_fields ob). induction (o_fields ob') as [|[k' f'] l IH]; intros [|[k0 f0] l0] F k f; cbn in *; try discriminate; [intros []|].
  injection F as -> E1 _ F. intros [[= <- <-]|I]; eauto. destruct (IH _ F _ _ I) as (x & J & X). eauto.
Qed.
(** The values of objects with different numbers differ, unless they are
    frozen. *)
Definition separate (v : env) : Prop :=
  forall o o' ob ob' k k' f f', nth_error (v_objs v) o = Some ob -> nth_error (v_objs v) o' = Some ob' ->
    In (k, f) (o_fields ob) -> In (k', f') (o_fields ob') -> fst f = fst f' -> o <> o' -> exists x, freezes (v_types v) (o_typ ob) k x.
Lemma apart_separate b v2 v : apart b v2 -> v_types v = v_types v2 -> 
  (forall o ob, nth_error (v_objs v) o = Some ob -> exists ob2, nth_error (v_objs v2) o = Some ob2 /\ o_typ ob = o_typ ob2 /\
    forall k f, In (k, f) (o_fields ob) -> exists f', In (k, f') (o_fields ob2) /\ fst f' = fst f) -> separate v.
Proof.
  intros [Af An Ast Ao] Et Get o o' ob ob' k k' f f' E E' I I' Ef Ne. apply Get in E as (ob2 & E & T & B), E' as (ob2' & E' & _ & B').
  destruct (B _ _ I) as (g & J & X), (B' _ _ I') as (g' & J' & X').
  assert (L : (fst g < b)%nat) by (eapply Ao; [exact E|exact E'|exact J|exact J'| |auto]; congruence).
  apply nth_error_In in E. rewrite Et, T. destruct (Ast _ _ _ E J) as [[_ Fr]|R]; auto. lia.
Qed.
Lemma empty_apart v : v_objs v = [] -> frozen_below (v_types v) (v_next v) -> apart (v_next v) v.
Proof. intros Ob F. constructor; auto; rewrite Ob; [intros ? ? ? []|intros [|o] ? ? ? ? ? ? ? E; discriminate]. Qed.
Lemma start_frozen names : frozen_below (v_types (start_env names)) (v_next (start_env names)).
Proof. intros rt k f []. Qed.
Theorem accepted_apart compiles matches lax fs v bad idle rsl trlc names more v1 v2 : accepted compiles matches lax fs v bad idle rsl trlc names more v1 v2 -> separate v.
Proof.
  intros A. destruct (ac_linked _ _ _ _ _ _ _ _ _ _ _ _ _ A) as (Et & _ & _ & _ & Eo). eapply apart_separate; eauto.
  - eapply files_apart; [exact (ac_objects _ _ _ _ _ _ _ _ _ _ _ _ _ A)|]. apply empty_apart.
    + rewrite (files_objects _ _ _ _ _ _ _ (ac_types _ _ _ _ _ _ _ _ _ _ _ _ _ A)). auto.
    + eapply files_counts; [exact (ac_types _ _ _ _ _ _ _ _ _ _ _ _ _ A)|]. apply start_frozen.
  - intros o ob E. assert (X : nth_error (map bare_object (v_objs v)) o = Some (bare_object ob)) by (rewrite nth_error_map, E; auto).
    rewrite Eo, nth_error_map in X. destruct (nth_error (v_objs v2) o) as [ob2|]; [|discriminate]. change (Some (bare_object ob2) = Some (bare_object ob)) in X.
    exists ob2. split; auto. apply bare_fields. congruence.
Qed.
Theorem laid_apart compiles matches fs rsl trlc names more v1 v2 v : RunValid.laid_out compiles matches fs rsl trlc names more v1 v2 v -> separate v.
Proof.
  intros V. destruct (RunValid.va_linked _ _ _ _ _ _ _ _ _ _ V) as (Et & _ & _ & _ & _ & Fo). apply (apart_separate (v_next v1) v2); auto.
  - assert (T : v_objs v1 = [] /\ frozen_below (v_types v1) (v_next v1)).
    { generalize (start_frozen (names ++ more)). assert (O : v_objs (start_env (names ++ more)) = []) by auto. revert O.
      generalize (RunValid.va_types _ _ _ _ _ _ _ _ _ _ V). generalize (start_env (names ++ more)). clear. intros v0.
      induction 1 as [v0|f fl name l body p ps v0 w v' _ _ _ I _ IH]; auto. intros O F.
      apply IH; [rewrite (items_objects _ _ _ _ _ _ _ _ _ _ I); auto|eapply items_counts; eauto]. }
    destruct T as [T1 T2]. generalize (RunValid.va_objects _ _ _ _ _ _ _ _ _ _ V), (empty_apart _ T1 T2). generalize (v_next v1). clear. intros b.
    induction 1 as [v0|f fl name l body p ps v0 w v' _ _ _ I _ IH]; auto. intros A. apply IH. eapply items_apart; eauto.
  - clear - Fo. induction Fo as [|x y l l' R _ IH]; intros [|o] ob E; try discriminate; cbn in E.
    + injection E as <-. exists x. split; auto. destruct R as [p n lo r fs fs' F]. split; auto. cbn. clear - F.
      induction F as [|[k f] [k' f'] l l' (A & B & _) _ IH]; intros k0 f0; [intros []|]. cbn in *. subst k'. intros [[= <- <-]|I]; eauto.
      destruct (IH _ _ I) as (g & J & X). eauto.
    + apply IH. auto.
Qed.

Section RUN.
Variable compiles : text -> bool.
Variable matches : text -> text -> option bool.
Variable pick : list SourceMan.node -> nat.
Variable lint recovery : bool.
Hypothesis regex : forall p x, compiles p = true -> matches p x <> None.
Notation process := (process compiles matches pick lint recovery).
(** The object has a component that its type does not freeze. *)
Definition own_value (G : types) (ob : object) : Prop :=
  exists c, In c (all_components G (o_typ ob)) /\ forall f, ~ freezes G (o_typ ob) (c_name c) f.
Lemma separate_distinct v : separate v -> unchecked matches v -> (forall o ob, nth_error (v_objs v) o = Some ob -> own_value (v_types v) ob) ->
  distinct_objects (World (v_objs v) matches).
Proof.
  intros Sp Un O o o' ob ob' E E' Sm. cbn in *. destruct (Nat.eq_dec o o') as [|Ne]; auto. exfalso. destruct (O _ _ E) as (c & Ic & N).
  destruct (st_fields _ _ _ _ (un_settled _ _ Un _ _ E) c Ic) as (f & Ef & _). specialize (Sm (c_name c)). rewrite Ef in Sm. cbn in Sm.
  destruct (assoc (c_name c) (o_fields ob')) as [f'|] eqn:Ef'; [|discriminate]. injection Sm as Sm.
  destruct (Sp _ _ _ _ _ _ _ _ E E' (assoc_in _ _ _ Ef) (assoc_in _ _ _ Ef') Sm Ne) as [x X]. exact (N _ X).
Qed.
(** Evaluation of checks follows the manual. *)
Lemma site_meaning v ob s : unchecked matches v -> distinct_objects (World (v_objs v) matches) -> In ob (v_objs v) -> In s (ChecksProofs.object_sites (v_types v) ob) ->
  regular (ck_expr (ChecksProofs.s_check s)) -> ~ mixed (v_types v) (ck_expr (ChecksProofs.s_check s)) ->
  forall b, sem (World (v_objs v) matches) (ChecksProofs.s_fields s) (ck_expr (ChecksProofs.s_check s)) (Some (SBool b)) <->
    ChecksProofs.outcome (World (v_objs v) matches) s (if b then ChecksProofs.Holds else ChecksProofs.Fails).
Proof.
  intros Un D Io I R Mx b. assert (Ty := un_types _ _ Un). destruct (site_scope matches v Un ob s Io I) as (a & V & Co & Sc).
  destruct (strict_or (v_types v) (World (v_objs v) matches) (ok_order _ _ Ty) _ _ (check_typed matches v Un _ _ V Co)) as [Wt|M]; [|contradiction].
  assert (C := correctness (v_types v) (World (v_objs v) matches) (ok_order _ _ Ty) (unchecked_world matches v Un) (ok_distinct _ _ Ty) (ok_tup _ _ Ty) D _ _ _ Wt Sc R).
  unfold correct in C. split.
  - intros Sb. destruct (evaluate _ _ _) as [x|x| |] eqn:Ev; try contradiction; [|destruct (C _ Sb)].
    destruct C as (m & Sm & O). assert (U := sem_unique _ _ _ _ _ Sm Sb). destruct m as [m|]; [|contradiction]. destruct m; try contradiction. cbn in U. subst.
    unfold oden in O. destruct (v_val x) as [[y c]|] eqn:Vx; [|contradiction]. destruct y; try contradiction. cbn in O. subst.
    destruct b; [eapply ChecksProofs.out_true|eapply ChecksProofs.out_false]; eauto.
  - intros Ou. assert (X : exists x c, evaluate (World (v_objs v) matches) (Some (ChecksProofs.s_fields s)) (ck_expr (ChecksProofs.s_check s)) = Ok x /\ v_val x = Some (PBool b, c))
      by (destruct b; inversion Ou; eauto).
    destruct X as (x & c & Ex & Vx). rewrite Ex in C. destruct C as (m & Sm & O). unfold oden in O. rewrite Vx in O.
    destruct m as [m|]; [|contradiction]. destruct m; try contradiction. cbn in O. subst. auto.
Qed.
Lemma run_distinct fs v ms o o' ob ob' : process fs = Ok (Some v, ms) -> nth_error (v_objs v) o = Some ob -> nth_error (v_objs v) o' = Some ob' ->
  (forall k, option_map fst (assoc k (o_fields ob)) = option_map fst (assoc k (o_fields ob'))) -> own_value (v_types v) ob -> o = o'.
Proof.
  intros H E E' Sm (c & Ic & N). destruct (Nat.eq_dec o o') as [|Ne]; auto. exfalso.
  destruct (run_accepted compiles matches pick lint recovery regex _ _ _ H) as (bad & idle & rsl & trlc & rn & more & v1 & v2 & A).
  apply process_result in H as [Ty Ob Rd Se Tb Ck]; auto.
  destruct (st_fields _ _ _ _ (Se _ _ E) c Ic) as (f & Ef & _). specialize (Sm (c_name c)). rewrite Ef in Sm. cbn in Sm.
  destruct (assoc (c_name c) (o_fields ob')) as [f'|] eqn:Ef'; [|discriminate]. injection Sm as Sm.
  destruct (accepted_apart _ _ _ _ _ _ _ _ _ _ _ _ _ A _ _ _ _ _ _ _ _ E E' (assoc_in _ _ _ Ef) (assoc_in _ _ _ Ef') Sm Ne) as [x X]. exact (N _ X).
Qed.
Lemma run_objects_distinct fs v ms : process fs = Ok (Some v, ms) -> (forall o ob, nth_error (v_objs v) o = Some ob -> own_value (v_types v) ob) ->
  distinct_objects (World (v_objs v) matches).
Proof. intros H O o o' ob ob' E E' Sm. cbn in *. eapply run_distinct; eauto. Qed.
(** Checks mean what the manual says. *)
Theorem run_meaning fs v ms o ob s : process fs = Ok (Some v, ms) -> (forall o ob, nth_error (v_objs v) o = Some ob -> own_value (v_types v) ob) ->
  nth_error (v_objs v) o = Some ob -> In s (ChecksProofs.object_sites (v_types v) ob) ->
  regular (ck_expr (ChecksProofs.s_check s)) -> ~ mixed (v_types v) (ck_expr (ChecksProofs.s_check s)) ->
  exists b, sem (World (v_objs v) matches) (ChecksProofs.s_fields s) (ck_expr (ChecksProofs.s_check s)) (Some (SBool b)) /\
    (b = true \/ ck_sev (ChecksProofs.s_check s) = Sev_warning).
Proof.
  intros H Ow E I R Mx. assert (D := run_objects_distinct _ _ _ H Ow). apply process_result in H as [Ty Ob Rd Se Tb Ck]; auto.
  assert (Un : unchecked matches v) by (constructor; auto).
  destruct (Ck _ _ _ E I) as [Hd|[Fl Sv]]; [exists true|exists false]; (split; [|auto]); eapply site_meaning; eauto using nth_error_In.
Qed.
(** Files are accepted exactly if the checks hold. *)
Definition checks_hold (v : env) : Prop :=
  forall ob s, In ob (v_objs v) -> In s (ChecksProofs.object_sites (v_types v) ob) ->
    exists b, sem (World (v_objs v) matches) (ChecksProofs.s_fields s) (ck_expr (ChecksProofs.s_check s)) (Some (SBool b)) /\
      (b = true \/ ck_sev (ChecksProofs.s_check s) = Sev_warning).
Theorem laid_meaning fs rsl trlc names more v1 v2 v : RunValid.laid_out compiles matches fs rsl trlc names more v1 v2 v ->
  (lint = true -> forall u ut, nth_error (tups (v_types v)) u = Some ut -> ~ LintRun.stuck (v_types v) ut) ->
  (forall o ob, nth_error (v_objs v) o = Some ob -> own_value (v_types v) ob) ->
  (forall ob s, In ob (v_objs v) -> In s (ChecksProofs.object_sites (v_types v) ob) ->
    regular (ck_expr (ChecksProofs.s_check s)) /\ ~ mixed (v_types v) (ck_expr (ChecksProofs.s_check s))) ->
  (checks_hold v <-> exists ms, process fs = Ok (Some v, ms)).
Proof.
  intros V L Ow Rg. destruct (RunLint.laid_run compiles matches pick recovery regex lint _ _ _ _ _ _ _ _ V L) as (Un & ms & _ & E).
  assert (D := separate_distinct _ (laid_apart _ _ _ _ _ _ _ _ _ _ V) Un Ow). split.
  - intros H. destruct (checks_do matches v (un_types _ _ Un) (un_ready _ _ Un) (un_settled _ _ Un)) as (ms4 & E4).
    + intros ob s I J. destruct (Rg _ _ I J) as [R M]. destruct (H _ _ I J) as (b & Sm & Sv). apply (site_meaning v ob s Un D I J R M) in Sm.
      destruct b; [auto|]. destruct Sv as [|Sv]; [discriminate|auto].
    + rewrite E, E4. eexists. reflexivity.
  - intros (ms' & E') ob s I J. destruct (Rg _ _ I J) as [R M]. apply In_nth_error in I as (o & I). eapply run_meaning; eauto.
Qed.
End RUN.
