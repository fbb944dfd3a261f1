(** The record objects that are accepted have a value for every component. *)
From Coq Require Import Relations.
From Verif Require Import Base Lexer SymTab Ast Eval Typing TypesProofs ParserBase ParserProofs ParserExpr ParserValue ExprTyping
  ValueSyntax ValueParserSound ValueTyping Lint ParserDecl ParserFile Growth DeclInv DeclRsl.
From Verif Require SourceManProofs.
From Coq Require Import ZifyBool ZifyNat ZifyN.
Open Scope Z_scope.

(** ** Objects *)
Section OBJECTS.
Variable G : types.

Definition null (v : vexpr) : Prop := exists l, v = XNull l.
Record object_ok (objs : list object) (ob : object) : Prop := ObjectOk {
  oo_type : exists rt, rec G (o_typ ob) = Some rt /\ r_abstract rt = false;
  oo_keys : map fst (o_fields ob) = map c_name (all_components G (o_typ ob));
  oo_fields : forall c f, In c (all_components G (o_typ ob)) -> assoc (c_name c) (o_fields ob) = Some f ->
    vt0 G objs (c_typ c) (snd f) \/ null (snd f)
}.
(** Nothing is missing, and frozen components have their frozen value. *)
Record done (objs : list object) (ob : object) (c : component) : Prop := Done {
  dn_fits : exists f, assoc (c_name c) (o_fields ob) = Some f /\ fits0 G objs (c_typ c) (c_opt c) (snd f);
  dn_frozen : forall f, get_freezing G (o_typ ob) (c_name c) = Some f -> assoc (c_name c) (o_fields ob) = Some f
}.
Definition complete_object (objs : list object) (ob : object) : Prop :=
  forall c, In c (all_components G (o_typ ob)) -> done objs ob c.

Lemma object_mono objs objs' ob : same_objects objs objs' -> object_ok objs ob -> object_ok objs' ob.
Proof.
  intros S [A B C]. constructor; auto. intros c f I E. destruct (C c f I E) as [V|N]; auto. left.
  eapply (vt0_mono G G objs objs'); eauto. split; eauto.
Qed.
Lemma done_mono objs objs' ob c : same_objects objs objs' -> done objs ob c -> done objs' ob c.
Proof.
  intros S [(f & E & F) B]. constructor; auto. exists f. split; auto. destruct F as [V|N]; [left|right; auto].
  eapply (vt0_mono G G objs objs'); eauto. split; eauto.
Qed.
End OBJECTS.

Lemma set_keys d k f : map fst (set_field d k f) = map fst d.
Proof. induction d as [|[k' f'] d IH]; cbn; auto. destruct (text_eqb k' k); cbn; congruence. Qed.
Lemma set_same d k f x : assoc k d = Some x -> assoc k (set_field d k f) = Some f.
Proof. induction d as [|[k' f'] d IH]; cbn; [discriminate|]. destruct (text_eqb k' k) eqn:E; cbn; rewrite E; auto. Qed.
Lemma set_other d k f k' : k' <> k -> assoc k' (set_field d k f) = assoc k' d.
Proof.
  intros N. induction d as [|[k0 f0] d IH]; cbn; auto. destruct (text_eqb k0 k) eqn:E; cbn; [|rewrite IH; auto].
  apply text_eqb_eq in E. subst. destruct (text_eqb k k') eqn:E'; auto. apply text_eqb_eq in E'. congruence.
Qed.
Lemma null_is v : is_null v = true <-> null v.
Proof. unfold null. destruct v; cbn; split; try discriminate; eauto; intros (? & H); discriminate. Qed.
Lemma null_keys id l cs : map fst (null_components id l cs) = map c_name cs.
Proof. revert id. induction cs as [|c cs IH]; intros id; cbn; auto. f_equal. auto. Qed.
Lemma null_values id l cs k f : assoc k (null_components id l cs) = Some f -> null (snd f).
Proof.
  revert id. induction cs as [|c cs IH]; intros id; cbn; [discriminate|]. destruct (text_eqb _ _); eauto.
  intros E. injection E as <-. exists l. auto.
Qed.
Lemma assoc_key {A} k (d : list (text * A)) : In k (map fst d) -> exists x, assoc k d = Some x.
Proof.
  induction d as [|[k' x] d IH]; cbn; [intros []|]. destruct (text_eqb k' k) eqn:E; eauto. intros [->|I]; auto.
  rewrite text_eqb_refl in E. discriminate.
Qed.

Lemma same_component (l : list component) x y : NoDup (map c_name l) -> In x l -> In y l -> c_name x = c_name y -> x = y.
Proof.
  induction l as [|z l IH]; [intros _ []|]. cbn. intros Nd I1 I2 En. inversion Nd as [|? ? Ni Nd']; subst.
  destruct I1 as [<-|I1], I2 as [<-|I2]; auto; exfalso; apply Ni; [rewrite En|rewrite <- En]; apply in_map; auto.
Qed.

(** ** The invariant *)
Section TRLC.
Variable file : Z.
Variable src : text.
Variable matches : text -> text -> option bool.
Variable n : nat.
Variable G : types.
Hypothesis types : types_ok matches G.
Variable c : cunit.
Variable p : nat.
Hypothesis pkg : cu_pkg c = Some p.

Notation loc_of := (tok_loc file).

(** The object is in the table of its package. *)
Definition listed (v : env) (o : nat) (ob : object) : Prop :=
  exists d, nth_error (v_pkgs v) (o_pkg ob) = Some d /\ In (o_name ob, N_obj o) d.
Record objects_ok (v : env) : Prop := ObjectsOk {
  ob_types : v_types v = G;
  ob_names : names_ok v;
  ob_pkg : (p < List.length (v_pkgs v))%nat;
  ob_all : forall o ob, nth_error (v_objs v) o = Some ob -> object_ok G (v_objs v) ob /\ listed v o ob;
  ob_entries : forall q d k o, nth_error (v_pkgs v) q = Some d -> In (k, N_obj o) d ->
    exists ob, nth_error (v_objs v) o = Some ob /\ o_pkg ob = q /\ o_name ob = k
}.
Definition all_complete (v : env) : Prop := forall o ob, nth_error (v_objs v) o = Some ob -> complete_object G (v_objs v) ob.

Lemma objects_decl v : objects_ok v -> decl_ok matches v.
Proof. intros [A B C F H]. constructor; auto. rewrite A. auto. Qed.
Lemma alike_objects v v' : alike v v' -> objects_ok v -> objects_ok v'.
Proof.
  intros A [B C F H K]. constructor.
  - destruct A as [A1 A2 A3 A4]; congruence.
  - eapply alike_names; eauto.
  - destruct A as [A1 A2 A3 A4]; congruence.
  - destruct A as [A1 A2 A3 A4]. unfold listed. rewrite A2, A4. auto.
  - destruct A as [A1 A2 A3 A4]. rewrite A2, A4. auto.
Qed.

Ltac step := intros; first
  [ apply run_ret | apply run_error | apply run_crash | apply run_fuel | apply run_get | apply run_set | apply run_fresh
  | apply (run_current c _ p); [exact pkg|] ].

(** While object [o], the last one, is declared. *)
Record object_body (v0 : env) (r : nat) (v : env) (ob : object) : Prop := ObjectBody {
  eb_ok : objects_ok v;
  eb_last : nth_error (v_objs v) (List.length (v_objs v0)) = Some ob;
  eb_type : o_typ ob = r;
  eb_before : forall o, (o < List.length (v_objs v0))%nat -> nth_error (v_objs v) o = nth_error (v_objs v0) o;
  eb_length : List.length (v_objs v) = S (List.length (v_objs v0))
}.
Lemma body_alike' v0 r v v' ob : object_body v0 r v ob -> alike v v' -> object_body v0 r v' ob.
Proof.
  intros [A B C F H] K. constructor; [eapply alike_objects; eauto|..]; destruct K as [K1 K2 K3 K4]; rewrite ?K2; auto.
Qed.
Lemma same_change objs o f : (forall ob, o_typ (f ob) = o_typ ob) -> same_objects objs (change objs o f).
Proof.
  intros H i ob E. destruct (Nat.eq_dec o i) as [<-|N].
  - rewrite change_same, E. cbn. eauto.
  - rewrite change_other by auto. eauto.
Qed.

Lemma put_body v0 r v ob x f : object_body v0 r v ob -> In x (all_components G r) -> vt0 G (v_objs v) (c_typ x) (snd f) ->
  object_body v0 r (change_object (List.length (v_objs v0)) (put (c_name x) f) v) (put (c_name x) f ob).
Proof.
  intros [[A B C F En'] La Ty Be Le] Ix Vt. set (o := List.length (v_objs v0)) in *.
  assert (S : same_objects (v_objs v) (change (v_objs v) o (put (c_name x) f))) by (apply same_change; auto).
  assert (Di := ok_distinct _ _ types).
  constructor; cbn; auto.
  - constructor; cbn; auto.
    + eapply names_grow; eauto; cbn; auto using keeps_refl. rewrite change_length. auto.
    + intros i ob' E. destruct (Nat.eq_dec o i) as [<-|N].
      * rewrite change_same, La in E. cbn in E. injection E as <-. destruct (F _ _ La) as [Ok Ls]. split; auto.
        eapply object_mono; eauto. destruct Ok as [T K Fs]. constructor; auto; cbn.
        -- rewrite set_keys. auto.
        -- intros y g Iy Ey. destruct (text_eq_dec (c_name y) (c_name x)) as [En|Ne].
           ++ assert (y = x) by (subst r; eapply same_component; eauto).
              subst y. destruct (assoc_key (c_name x) (o_fields ob)) as (g' & Eg); [rewrite K; apply in_map; auto|].
              rewrite (set_same _ _ _ _ Eg) in Ey. injection Ey as <-. auto.
           ++ rewrite set_other in Ey by auto. eauto.
      * rewrite change_other in E by auto. destruct (F _ _ E) as [Ok Ls]. split; auto. eapply object_mono; eauto.
    + intros q d k i Ed Ik. destruct (En' _ _ _ _ Ed Ik) as (ob' & E1 & E2 & E3). destruct (Nat.eq_dec o i) as [<-|N].
      * rewrite change_same, E1. cbn. eexists. split; [reflexivity|]. auto.
      * rewrite change_other by auto. eauto.
  - fold o. rewrite change_same, La. auto.
  - intros i Li. rewrite change_other by lia. auto.
  - rewrite change_length. auto.
Qed.

(** *** Assignments *)
Lemma run_field v o k (E : env -> Prop) :
  run_ c v (field_of o k) (fun f v' => v' = v /\ exists ob, nth_error (v_objs v) o = Some ob /\ assoc k (o_fields ob) = Some f) E.
Proof.
  unfold field_of. eapply run_bind; [apply run_get with (Q := fun x v' => x = v /\ v' = v); auto|]. intros ? ? [-> ->].
  destruct (nth_error (v_objs v) o) as [ob|]; [|step]. destruct (assoc k (o_fields ob)) eqn:A; step. eauto.
Qed.
Lemma run_assign v0 r v ob x f (E : env -> Prop) : object_body v0 r v ob -> In x (all_components G r) ->
  vt0 G (v_objs v) (c_typ x) (snd f) ->
  run_ c v (assign (List.length (v_objs v0)) (c_name x) f)
    (fun _ v' => object_body v0 r v' (put (c_name x) f ob) /\ exists g, assoc (c_name x) (o_fields ob) = Some g /\ null (snd g)) E.
Proof.
  intros B I V. unfold assign. eapply run_bind; [apply run_field|]. intros g ? (-> & ob' & Eo & Eg).
  rewrite (eb_last _ _ _ _ B) in Eo. injection Eo as <-.
  destruct (is_null (snd g)) eqn:Nu; [|step]. step. split; [apply put_body; auto|]. exists g. split; auto. apply null_is. auto.
Qed.

(** Frozen components have no value yet. *)
Definition frozen_null (r : nat) (ob : object) : Prop :=
  forall k f g, get_freezing G r k = Some f -> assoc k (o_fields ob) = Some g -> null (snd g).
Lemma put_keeps k f ob k' : k' <> k -> assoc k' (o_fields (put k f ob)) = assoc k' (o_fields ob).
Proof. intros N. cbn. apply set_other. auto. Qed.

Lemma run_assignment v0 r v ob : object_body v0 r v ob -> frozen_null r ob ->
  run_ c v (assignment file src n r (List.length (v_objs v0)))
    (fun _ v' => exists ob', object_body v0 r v' ob' /\ frozen_null r ob') objects_ok.
Proof.
  intros B Fn. assert (O := eb_ok _ _ _ _ B). assert (Or := ok_order _ _ types). unfold assignment.
  eapply run_bind; [apply run_dp_any with (Q := fun _ v' => v' = v); auto|]. intros tk ? ->.
  eapply run_bind; [apply run_get with (Q := fun x v' => x = v /\ v' = v); auto|]. intros ? ? [-> ->].
  rewrite (ob_types _ O).
  eapply run_bind; [apply run_dlift with (Q := fun x v' => v' = v /\ In x (all_components G r)); [intros x E; split; auto|auto]|].
  { apply t_lookup_in in E. unfold components_of in E. apply in_map_iff in E as (y & Ey & I). injection Ey as _ <-.
    apply chain_components in I; auto. }
  intros x ? [-> Ix].
  eapply run_bind; [apply run_field with (E := objects_ok)|]. intros g ? (-> & ob' & Eo & Eg).
  destruct (negb (is_null (snd g))); [step; auto|].
  destruct (is_frozen G r (c_name x)) eqn:Fz; [step; auto|].
  eapply run_bind; [apply run_dp_any with (Q := fun _ v' => v' = v); auto|]. intros ? ? ->.
  eapply run_bind; [apply run_value with (E := objects_ok) (matches := matches); auto using objects_decl|]. intros y ? [-> Vy].
  eapply run_bind; [apply run_fresh with (Q := fun _ v' => alike v v'); apply alike_next|]. intros id v1 A1.
  rewrite (ob_types _ O) in Vy.
  eapply run_weaken; [eapply run_assign with (E := objects_ok); [eapply body_alike'; eauto|eauto|rewrite (al_objs _ _ A1); exact Vy]| |auto].
  intros ? v2 (B2 & _). exists (put (c_name x) (id, y) ob). split; auto.
  intros k f h Fk Ek. destruct (text_eq_dec k (c_name x)) as [->|Ne].
  - unfold is_frozen in Fz. rewrite Fk in Fz. discriminate.
  - rewrite put_keeps in Ek by auto. eauto.
Qed.
Lemma run_assignments m v0 r v ob : object_body v0 r v ob -> frozen_null r ob ->
  run_ c v (assignments file src n m r (List.length (v_objs v0)))
    (fun _ v' => exists ob', object_body v0 r v' ob' /\ frozen_null r ob') objects_ok.
Proof.
  revert v ob. induction m as [|m IH]; intros v ob B Fn; cbn; [step|].
  apply run_cond; [step; eauto|]. eapply run_bind; [eapply run_assignment; eauto|]. intros ? v1 (ob1 & B1 & F1). eauto.
Qed.

Lemma frozen_typed r k f objs : get_freezing G r k = Some f ->
  exists x, In x (all_components G r) /\ c_name x = k /\ vt0 G objs (c_typ x) (snd f).
Proof.
  assert (Or := ok_order _ _ types).
  assert (H : forall fuel r, freezing_steps G fuel r k = Some f -> (r <= fuel)%nat ->
     exists x, In x (all_components_steps G fuel r) /\ c_name x = k /\ vt0 G [] (c_typ x) (snd f)).
  { induction fuel as [|fuel IH]; intros r0 E L.
    - cbn in E. assert (r0 = 0)%nat as -> by lia. destruct (rec G 0) as [rt|] eqn:R; [|discriminate].
      destruct (assoc k (r_frozen rt)) as [g|] eqn:A; [|destruct (r_parent rt); discriminate]. injection E as ->.
      apply assoc_in in A. destruct (ro_frozen _ _ _ _ (ty_recs _ _ types _ _ R) _ _ A) as (x & Ix & X). exists x. auto.
    - cbn [freezing_steps] in E. destruct (rec G r0) as [rt|] eqn:R; [|discriminate].
      destruct (assoc k (r_frozen rt)) as [g|] eqn:A.
      + injection E as ->. apply assoc_in in A. destruct (ro_frozen _ _ _ _ (ty_recs _ _ types _ _ R) _ _ A) as (x & Ix & X).
        exists x. split; auto. apply (chain_components G _ _ x Or L). 
        apply (chain_components G r0 r0 x Or) in Ix; [|lia]. revert Ix.
        clear - L Or. intros I.
        assert (Mono : forall f1 f2 r, (r <= f1)%nat -> (f1 <= f2)%nat -> In x (chain_steps G f1 r) -> In x (chain_steps G f2 r)).
        { induction f1 as [|f1 IH]; intros f2 r L1 L2 J.
          - assert (r = 0)%nat as -> by lia. destruct f2; auto. cbn [chain_steps] in *. destruct (rec G 0); auto. rewrite app_nil_r in J. apply in_or_app. auto.
          - destruct f2 as [|f2]; [lia|]. cbn [chain_steps] in *. destruct (rec G r) as [rt|] eqn:R; auto. apply in_app_or in J as [J|J]; apply in_or_app; auto. right.
            destruct (r_parent rt) as [q|] eqn:P; auto. apply IH; auto; [|lia]. assert (q < r)%nat by (apply Or; exists rt; auto). lia. }
        eapply Mono; eauto.
      + destruct (r_parent rt) as [q|] eqn:P; [|discriminate]. assert (q < r0)%nat by (apply Or; exists rt; auto).
        destruct (IH q E) as (x & Ix & X); [lia|]. exists x. split; auto. cbn [all_components_steps]. rewrite R, P. apply in_or_app. auto. }
  intros E. destruct (H r r E) as (x & Ix & En & V); auto. exists x. split; auto. split; auto.
  eapply (vt0_mono G G [] objs); eauto; [split; eauto|]. intros [|o] ob Q; discriminate.
Qed.

(** *** Completion *)
Lemma run_complete v0 r l cs : forall pre v ob, object_body v0 r v ob -> all_components G r = pre ++ cs ->
  (forall x, In x pre -> done G (v_objs v) ob x) ->
  (forall x f g, In x cs -> get_freezing G r (c_name x) = Some f -> assoc (c_name x) (o_fields ob) = Some g -> null (snd g)) ->
  run_ c v (complete l r (List.length (v_objs v0)) cs)
    (fun _ v' => exists ob', object_body v0 r v' ob' /\ complete_object G (v_objs v') ob') objects_ok.
Proof.
  assert (Di := ok_distinct _ _ types r).
  induction cs as [|x cs IH]; intros pre v ob B Eq Hp Hs; cbn [complete].
  - step. exists ob. split; auto. intros y I. apply Hp. rewrite (eb_type _ _ _ _ B), Eq, app_nil_r in I. auto.
  - assert (O := eb_ok _ _ _ _ B). assert (Ix : In x (all_components G r)) by (rewrite Eq; apply in_or_app; cbn; auto).
    assert (Ok := proj1 (ob_all _ O _ _ (eb_last _ _ _ _ B))).
    eapply run_bind; [apply run_field with (E := objects_ok)|]. intros g ? (-> & ob' & Eo & Eg).
    rewrite (eb_last _ _ _ _ B) in Eo. injection Eo as <-.
    assert (Ne : forall y, In y pre \/ In y cs -> c_name y <> c_name x).
    { intros y Iy En. rewrite Eq, map_app in Di. cbn in Di. apply NoDup_remove_2 in Di. apply Di. rewrite <- En, <- map_app. apply in_map.
      apply in_or_app. auto. }
    eapply run_bind with (Q' := fun _ v' => exists ob', object_body v0 r v' ob' /\ done G (v_objs v') ob' x /\
       same_objects (v_objs v) (v_objs v') /\ (forall k, k <> c_name x -> assoc k (o_fields ob') = assoc k (o_fields ob))).
    + destruct (is_null (snd g)) eqn:Nu.
      * eapply run_bind; [apply run_get with (Q := fun x v' => x = v /\ v' = v); auto|]. intros ? ? [-> ->]. rewrite (ob_types _ O).
        destruct (get_freezing G r (c_name x)) as [f|] eqn:Fz.
        -- destruct (frozen_typed r (c_name x) f (v_objs v) Fz) as (y & Iy & En & Vy).
           assert (y = x) as -> by (eapply same_component; eauto).
           eapply run_weaken; [eapply run_assign with (E := objects_ok); eauto| |auto]. intros ? v1 (B1 & _).
           exists (put (c_name x) f ob). split; auto.
           assert (So : same_objects (v_objs v) (v_objs v1)).
           { intros i obi Ei. destruct (Nat.lt_ge_cases i (List.length (v_objs v0))) as [L|L].
             - rewrite (eb_before _ _ _ _ B1) by auto. rewrite (eb_before _ _ _ _ B) in Ei by auto. eauto.
             - assert (i < List.length (v_objs v))%nat by (apply nth_error_Some; congruence).
               rewrite (eb_length _ _ _ _ B) in *. assert (i = List.length (v_objs v0)) as -> by lia.
               rewrite (eb_last _ _ _ _ B) in Ei. injection Ei as <-. rewrite (eb_last _ _ _ _ B1). eauto. }
           split; [|split; auto].
           ++ constructor.
              ** exists f. split; [cbn; eapply set_same; eauto|]. left. eapply (vt0_mono G G (v_objs v)); eauto. split; eauto.
              ** intros f' E'. rewrite (eb_type _ _ _ _ B1), Fz in E'. injection E' as <-. cbn. eapply set_same; eauto.
           ++ intros k N. apply put_keeps. auto.
        -- destruct (c_opt x) eqn:Op; step; auto. exists ob. split; auto. split; [|split; auto].
           ++ constructor; [|rewrite (eb_type _ _ _ _ B), Fz; discriminate]. exists g. split; auto. right. split; auto. apply null_is. auto.
           ++ intros i obi Ei. eauto.
      * step. exists ob. split; auto. split; [|split; auto; intros i obi Ei; eauto]. constructor.
        -- exists g. split; auto. left. rewrite <- (eb_type _ _ _ _ B) in Ix. destruct (oo_fields _ _ _ Ok x g Ix Eg) as [V|N]; auto. apply null_is in N. congruence.
        -- intros f' E'. rewrite (eb_type _ _ _ _ B) in E'. assert (N : null (snd g)) by (eapply Hs; cbn; eauto). apply null_is in N. congruence.
    + intros ? v1 (ob1 & B1 & D1 & So & Sm). apply (IH (pre ++ [x]) v1 ob1); auto.
      * rewrite <- app_assoc. auto.
      * intros y Iy. apply in_app_or in Iy as [Iy|[<-|[]]]; auto. destruct (done_mono _ _ _ _ _ So (Hp y Iy)) as [(f & Ef & Ff) Fr].
        constructor; [exists f|]; rewrite ?(Sm (c_name y)) by (apply Ne; auto); auto.
        rewrite (eb_type _ _ _ _ B1). rewrite (eb_type _ _ _ _ B) in Fr. auto.
      * intros y f h Iy Fy Ey. rewrite (Sm (c_name y)) in Ey by (apply Ne; auto). eapply Hs; cbn; eauto.
Qed.

(** *** Whole objects *)
Lemma object_start v r rt name l sec : objects_ok v -> rec (v_types v) r = Some rt -> r_abstract rt = false ->
  let ob := Object p name l r (null_components (v_next v) l (all_components (v_types v) r)) in
  let v' := add_object ob sec (add_entry p name (N_obj (List.length (v_objs v))) v) in
  object_body v r v' ob /\ (forall x f g, get_freezing G r x = Some f -> assoc x (o_fields ob) = Some g -> null (snd g)) /\
  same_objects (v_objs v) (v_objs v').
Proof.
  intros O R Ab ob v'. subst v'. destruct O as [Ot On Op Oa Oe].
    assert (So : same_objects (v_objs v) (v_objs v ++ [ob])).
    { intros i obi Ei. exists obi. rewrite nth_before; auto. apply nth_error_Some. congruence. }
    split; [constructor|split]; cbn; auto.
    - constructor; cbn; auto.
      + eapply names_register with (v := v); eauto; cbn; auto using keeps_refl; [rewrite app_length; lia| |discriminate].
        constructor; try discriminate; auto. intros o E. injection E as <-. rewrite app_length. cbn. lia.
      + rewrite change_length. auto.
      + intros i obi Ei. apply nth_extended in Ei as [Ei|[-> ->]].
        * destruct (Oa _ _ Ei) as [Ok (d & Ed & Id)]. split; [eapply object_mono; eauto|]. unfold listed. cbn.
          destruct (Nat.eq_dec p (o_pkg obi)) as [Q|N].
          -- rewrite <- Q in *. rewrite change_same, Ed. cbn. eexists. split; [reflexivity|]. apply in_or_app. auto.
          -- rewrite change_other by auto. eauto.
        * split.
          -- constructor; cbn; [exists rt; rewrite <- Ot; auto|rewrite null_keys, Ot; auto|]. intros x f Ix Ex. right. eapply null_values; eauto.
          -- unfold listed. cbn. rewrite change_same. destruct (nth_error (v_pkgs v) p) as [d|] eqn:Ed.
             ++ cbn. eexists. split; [reflexivity|]. apply in_or_app. cbn. auto.
             ++ apply nth_error_None in Ed. lia.
      + intros q d k i Ed Ik.
        assert (Old : In (k, N_obj i) (nth q (v_pkgs v) []) -> exists ob', nth_error (v_objs v ++ [ob]) i = Some ob' /\ o_pkg ob' = q /\ o_name ob' = k).
        { intros J. destruct (nth_error (v_pkgs v) q) as [d0|] eqn:E0.
          - rewrite (nth_error_nth _ _ _ E0) in J. destruct (Oe _ _ _ _ E0 J) as (ob' & E1 & E2). exists ob'. split; auto.
            rewrite nth_before; auto. apply nth_error_Some. congruence.
          - apply nth_error_None in E0. rewrite nth_overflow in J by auto. destruct J. }
        destruct (Nat.eq_dec p q) as [<-|N].
        * rewrite change_same in Ed. destruct (nth_error (v_pkgs v) p) as [d0|] eqn:E0; [|discriminate]. cbn in Ed. injection Ed as <-.
          apply in_app_or in Ik as [J|[J|[]]]; [apply Old; rewrite (nth_error_nth _ _ _ E0); auto|].
          injection J as <- <-. exists ob. rewrite nth_last. auto.
        * rewrite change_other in Ed by auto. apply Old. rewrite (nth_error_nth _ _ _ Ed). auto.
    - apply nth_last.
    - intros o Lo. apply nth_before. auto.
    - rewrite app_length. cbn. lia.
    - intros x f g _ E. eapply null_values; eauto.
Qed.
Lemma run_object v : objects_ok v ->
  run_ c v (parse_object file src n) (fun _ v' => objects_ok v' /\ (all_complete v -> all_complete v')) objects_ok.
Proof.
  intros O. unfold parse_object.
  eapply run_bind; [apply run_member with (E := objects_ok); auto; apply O|]. intros [r tk] ? [-> L]. cbn [fst] in L.
  eapply run_bind; [apply run_get with (Q := fun x v' => x = v /\ v' = v); auto|]. intros ? ? [-> ->].
  destruct (rec (v_types v) r) as [rt|] eqn:R; [|step]. destruct (r_abstract rt) eqn:Ab; [step; auto|].
  eapply run_bind; [apply run_dp_any with (Q := fun _ v' => v' = v); auto|]. intros name ? ->.
  eapply run_bind; [apply (run_current c _ p) with (Q := fun x v' => x = p /\ v' = v); auto|]. intros ? ? [-> ->].
  eapply run_bind with (Q' := fun _ v' => v' = v).
  { intros s <- Ec. cbn. auto. }
  intros sec ? ->.
  eapply run_bind; [apply run_register; auto|]. intros _ ? ->.
  set (l := loc_of name). set (ob := Object p (tok_text name) l r (null_components (v_next v) l (all_components (v_types v) r))).
  eapply run_bind; [apply run_set with (Q := fun _ v' => object_body v r v' ob /\ (forall x f g, get_freezing G r x = Some f -> assoc x (o_fields ob) = Some g -> null (snd g)) /\ same_objects (v_objs v) (v_objs v'))|].
  { apply object_start with (rt := rt); auto. }
  intros ? v1 (B1 & F1 & S1). assert (O1 := eb_ok _ _ _ _ B1).
  eapply run_bind; [apply run_dp_any with (Q := fun _ v' => v' = v1); auto|]. intros _ ? ->.
  eapply run_bind; [eapply run_assignments; eauto|]. intros ? v2 (ob2 & B2 & F2).
  rewrite (ob_types _ O).
  eapply run_bind; [apply run_complete with (pre := []) (ob := ob2); auto|].
  { intros x []. }
  { intros x f g _. apply F2. }
  intros ? v3 (ob3 & B3 & C3). assert (O3 := eb_ok _ _ _ _ B3).
  eapply run_bind; [apply run_dp_any with (Q := fun _ v' => v' = v3); auto|]. intros _ ? ->. step. split; auto.
  intros Ac i obi Ei. destruct (Nat.lt_ge_cases i (List.length (v_objs v))) as [Li|Li].
  - assert (So : same_objects (v_objs v) (v_objs v3)).
    { intros j obj Ej. rewrite (eb_before _ _ _ _ B3); [eauto|]. apply nth_error_Some. congruence. }
    rewrite (eb_before _ _ _ _ B3) in Ei by auto. intros x Ix. eapply done_mono; eauto. eapply Ac; eauto.
  - assert (i < List.length (v_objs v3))%nat by (apply nth_error_Some; congruence).
    rewrite (eb_length _ _ _ _ B3) in *. assert (i = List.length (v_objs v)) as -> by lia.
    rewrite (eb_last _ _ _ _ B3) in Ei. injection Ei as <-. auto.
Qed.

(** *** Sections and files *)
Lemma complete_trans v v1 v2 : alike v v1 -> (all_complete v1 -> all_complete v2) -> all_complete v -> all_complete v2.
Proof. intros [_ A _ _] H K. apply H. unfold all_complete in *. rewrite A. auto. Qed.
Notation entry_post v := (fun (_ : unit) v' => objects_ok v' /\ (all_complete v -> all_complete v')).
Lemma run_entry m v : objects_ok v -> run_ c v (parse_entry file src n m) (entry_post v) objects_ok
with run_entries m v : objects_ok v -> run_ c v (entries_loop file src n m) (entry_post v) objects_ok.
Proof.
  - destruct m as [|m]; intros O; cbn [parse_entry]; [step|]. apply run_cond; [|clear run_entry run_entries; apply run_object; auto].
    eapply run_bind; [apply run_dp_any with (Q := fun _ v' => v' = v); auto|]. intros ? ? ->.
    eapply run_bind; [apply run_dp_any with (Q := fun _ v' => v' = v); auto|]. intros name ? ->.
    eapply run_bind with (Q' := fun _ v' => alike v v').
    { intros s <- Ec. cbn. split; auto. constructor; auto. }
    intros ? v1 A. assert (O1 := alike_objects _ _ A O).
    eapply run_bind; [apply run_dp_any with (Q := fun _ v' => v' = v1); auto|]. intros ? ? ->.
    eapply run_bind; [apply run_entries; exact O1|]. clear run_entry run_entries. intros ? v2 (O2 & C2).
    eapply run_bind; [apply run_dp_any with (Q := fun _ v' => v' = v2); auto|]. intros ? ? ->.
    intros s <- Ec. unfold leave. destruct (s_sec s); cbn; auto. split; auto. split; auto. eapply complete_trans; eauto.
  - destruct m as [|m]; intros O; cbn [entries_loop]; [step|]. apply run_cond; [step; auto|].
    eapply run_bind; [apply run_entry; exact O|]. intros ? v1 (O1 & C1).
    eapply run_weaken; [apply run_entries; exact O1| |auto]. clear run_entry run_entries. intros ? v2 (O2 & C2). auto.
Qed.
Lemma run_try v rec m f (Q E : env -> Prop) : run_ c v m (fun _ => Q) E -> (forall v', Q v' -> E v') ->
  run_ c v (attempt rec m f) (fun b v' => if (b : bool) then Q v' else E v') E.
Proof.
  intros H W s Es Ec. specialize (H s Es Ec). unfold attempt. destruct (m s) as [a s1|e s1| |]; auto.
  destruct H as [H Ec1]. destruct rec; auto. unfold dbind, dp, with_names. cbn.
  destruct (f (s_env s1) (names_of (s_env s1) (s_cu s1)) _); cbn; auto.
Qed.
Definition file_post (v : env) (ok : bool) (v' : env) : Prop := objects_ok v' /\ (ok = true -> all_complete v -> all_complete v').
Lemma run_trlc_loop m rec v0 ok v : file_post v0 ok v ->
  run_ c v (trlc_loop file src n m rec ok) (file_post v0) objects_ok.
Proof.
  revert v ok. induction m as [|m IH]; intros v ok [O C]; cbn; [step|]. apply run_cond; [|step; split; auto].
  eapply run_bind; [apply run_try with (Q := fun v' => objects_ok v' /\ (all_complete v -> all_complete v')) (E := objects_ok)|].
  - apply run_entry. auto.
  - tauto.
  - intros b v1 H. apply IH. destruct b.
    + destruct H as [O1 C1]. split; auto. rewrite Bool.andb_true_r. auto.
    + split; auto. rewrite Bool.andb_false_r. discriminate.
Qed.
Theorem run_trlc_file rec v : objects_ok v ->
  run_ c v (parse_trlc_file file src n rec) (file_post v) objects_ok.
Proof.
  intros O. unfold parse_trlc_file. eapply run_bind; [apply run_trlc_loop with (v0 := v); split; auto|]. intros b v1 O1.
  eapply run_bind; [apply run_dp_any with (Q := fun _ v' => v' = v1); auto; apply O1|]. intros _ ? ->. step. auto.
Qed.
End TRLC.
