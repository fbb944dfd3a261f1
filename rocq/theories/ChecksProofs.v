(** User-defined checks: specification and proofs. *)
From Verif Require Import Base Lexer Ast Eval Checks TypesProofs.
Open Scope Z_scope.

(** ** Specification *)

(** A check together with what it is applied to: a record object or a tuple
    value at [s_loc]. *)
Record site := Site { s_check : check; s_loc : loc; s_fields : list (text * vexpr) }.

Section SPEC.
Variable W : world.
Variable G : types.

(** Where messages of a check go: the anchor, or the object itself. *)
Inductive place (s : site) : loc -> Prop :=
| place_object : ck_anchor (s_check s) = None -> place s (s_loc s)
| place_anchor a v : ck_anchor (s_check s) = Some a -> assoc a (s_fields s) = Some v -> place s (x_loc v).

(** A check holds, fails, or cannot be decided. *)
Inductive result := Holds | Fails | Undecided (e : error).
Inductive outcome (s : site) : result -> Prop :=
| out_true v a : evaluate W (Some (s_fields s)) (ck_expr (s_check s)) = Ok v ->
    v_val v = Some (PBool true, a) -> outcome s Holds
| out_false v a : evaluate W (Some (s_fields s)) (ck_expr (s_check s)) = Ok v ->
    v_val v = Some (PBool false, a) -> outcome s Fails
| out_null v l : evaluate W (Some (s_fields s)) (ck_expr (s_check s)) = Ok v ->
    v_val v = None -> place s l -> outcome s (Undecided (l, P_check_null))
| out_error e : evaluate W (Some (s_fields s)) (ck_expr (s_check s)) = Err e ->
    internal (snd e) = false -> outcome s (Undecided e).

Definition decided_site (s : site) : Prop := (exists r, outcome s r) /\ (exists l, place s l).

(** No further check is evaluated after this one. *)
Definition stops (s : site) : Prop :=
  (outcome s Fails /\ ck_sev (s_check s) = Sev_fatal) \/ (exists e, outcome s (Undecided e)).
(** The object is not acceptable because of this check. *)
Definition rejects (s : site) : Prop :=
  (outcome s Fails /\ ck_sev (s_check s) <> Sev_warning) \/ (exists e, outcome s (Undecided e)).

(** The message of a check, if any. *)
Inductive says (s : site) : list cmsg -> Prop :=
| says_nothing : outcome s Holds -> says s []
| says_warning l : outcome s Fails -> ck_sev (s_check s) = Sev_warning -> place s l ->
    says s [M_warning l (ck_msg (s_check s)) (ck_extra (s_check s))]
| says_error l : outcome s Fails -> ck_sev (s_check s) = Sev_error -> place s l ->
    says s [M_error l (ck_msg (s_check s)) (ck_extra (s_check s)) false]
| says_fatal l : outcome s Fails -> ck_sev (s_check s) = Sev_fatal -> place s l ->
    says s [M_error l (ck_msg (s_check s)) (ck_extra (s_check s)) true]
| says_undecided e : outcome s (Undecided e) -> says s [M_system e].

(** The tuples of a value on which checks are evaluated. *)
Fixpoint value_sites (a : ty) (v : vexpr) : list site :=
  match a, v with
  | TTup u, XTup l _ vs =>
      match nth_error (tups G) u with
      | Some ut => map (fun c => Site c l vs) (u_checks ut)
      | None => []
      end
  | TArr _ _ _ el, XArr _ _ vs => flat_map (value_sites el) vs
  | _, _ => []
  end.

(** A value fits the shape of its type as far as checks are concerned. *)
Fixpoint shaped (a : ty) (v : vexpr) : Prop :=
  match a with
  | TTup u => match v with
              | XTup _ _ _ => (u < List.length (tups G))%nat
              | XNull _ => True
              | _ => False
              end
  | TArr _ _ _ el => match v with
                     | XArr _ _ vs => Forall (shaped el) vs
                     | XNull _ => True
                     | _ => False
                     end
  | _ => True
  end.

Definition component_sites (fields : list (text * vexpr)) (c : component) : list site :=
  match assoc (c_name c) fields with Some v => value_sites (c_typ c) v | None => [] end.
Definition record_sites (o : object) : list site :=
  map (fun c => Site c (o_loc o) (fields_of o)) (iter_checks G (o_typ o)).
(** All checks of an object: tuples first, then the checks of its type. *)
Definition object_sites (o : object) : list site :=
  flat_map (component_sites (fields_of o)) (all_components G (o_typ o)) ++ record_sites o.

Definition shaped_object (o : object) : Prop :=
  forall c, In c (all_components G (o_typ o)) ->
    exists v, assoc (c_name c) (fields_of o) = Some v /\ shaped (c_typ c) v.

(** [l] is what is evaluated of [cs]: everything, or a part ending with the
    first check that stops. *)
Definition evaluated (cs l : list site) : Prop :=
  exists rest, cs = l ++ rest /\
    (forall a s b, l = a ++ s :: b -> stops s -> b = []) /\
    (rest <> [] -> exists a s, l = a ++ [s] /\ stops s).

(** ** One check *)

Lemma place_fun s l l' : place s l -> place s l' -> l = l'.
Proof. intros A B; inversion A; inversion B; congruence. Qed.
Lemma outcome_fun s r r' : outcome s r -> outcome s r' -> r = r'.
Proof.
  intros A B; inversion A; inversion B; subst; try congruence.
  match goal with P : place s ?a, Q : place s ?b |- _ => rewrite (place_fun s _ _ P Q) end. auto.
Qed.

Lemma real_location_spec c l fs l' :
  get_real_location c l fs = Some l' <-> place (Site c l fs) l'.
Proof.
  unfold get_real_location. split.
  - destruct (ck_anchor c) as [a|] eqn:A.
    + destruct (assoc a fs) as [v|] eqn:E; [|discriminate]. intros H; injection H as <-.
      eapply place_anchor; eauto.
    + intros H; injection H as <-. apply (place_object (Site c l fs)); auto.
  - intros P; inversion P as [A|a v A E]; subst; cbn in *; rewrite A; auto. rewrite E. auto.
Qed.

Lemma perform_spec c l fs : decided_site (Site c l fs) ->
  exists ms, says (Site c l fs) ms /\
    ((perform W c l fs = (ms, Raised) /\ stops (Site c l fs)) \/
     (perform W c l fs = (ms, Returned false) /\ ~ stops (Site c l fs) /\ rejects (Site c l fs)) \/
     (perform W c l fs = (ms, Returned true) /\ ~ rejects (Site c l fs))).
Proof.
  set (s := Site c l fs). intros ((r & O) & (lp & P)).
  assert (RL : get_real_location c l fs = Some lp) by (apply real_location_spec; auto).
  unfold perform.
  inversion O as [v a E V|v a E V|v l' E V P'|e E V]; subst r; change (s_fields s) with fs in E;
    change (s_check s) with c in E; rewrite E.
  - rewrite V. exists []. split; [apply says_nothing; auto|]. right; right. split; auto.
    intros [[F _]|(e & U)]; [pose proof (outcome_fun _ _ _ O F)|pose proof (outcome_fun _ _ _ O U)]; discriminate.
  - rewrite V, RL. destruct (ck_sev c) eqn:S.
    + exists [M_warning lp (ck_msg c) (ck_extra c)]. split; [apply (says_warning s); auto|].
      right; right. split; auto. intros [[_ N]|(e & U)]; [apply N; auto|].
      pose proof (outcome_fun _ _ _ O U); discriminate.
    + exists [M_error lp (ck_msg c) (ck_extra c) false]. split; [apply (says_error s); auto|].
      right; left. split; auto. split.
      * intros [[_ N]|(e & U)]; [cbn in N; congruence|]. pose proof (outcome_fun _ _ _ O U); discriminate.
      * left. split; auto. cbn. congruence.
    + exists [M_error lp (ck_msg c) (ck_extra c) true]. split; [apply (says_fatal s); auto|].
      left. split; auto. left. auto.
  - rewrite V, RL. rewrite (place_fun _ _ _ P P') in *. exists [M_system (l', P_check_null)].
    split; [apply (says_undecided s); auto|]. left. split; auto. right. eauto.
  - rewrite V. exists [M_system e]. split; [apply (says_undecided s); auto|]. left. split; auto. right; eauto.
Qed.

Lemma stops_rejects s : stops s -> rejects s.
Proof. intros [[F S]|U]; [left; split; auto; congruence|right; auto]. Qed.

(** ** Lists of checks *)

Lemma evaluated_nil : evaluated [] [].
Proof. exists []. repeat split; auto. - intros [|] ? ? H; discriminate. - intros H; elim H; auto. Qed.
Lemma evaluated_stop s cs : stops s -> evaluated (s :: cs) [s].
Proof.
  intros S. exists cs. repeat split; auto.
  - intros [|x a] y b H _; [injection H as _ <-; auto|destruct a; discriminate].
  - intros _. exists [], s. auto.
Qed.
Lemma evaluated_go s cs l : ~ stops s -> evaluated cs l -> evaluated (s :: cs) (s :: l).
Proof.
  intros N (rest & -> & A & B). exists rest. repeat split; auto.
  - intros [|x a] y b H S; injection H as <- H; [contradiction|eapply A; eauto].
  - intros R. destruct (B R) as (a & y & -> & S). exists (s :: a), y. auto.
Qed.
Lemma evaluated_app_stop cs cs' l : evaluated cs l -> (exists a s, l = a ++ [s] /\ stops s) -> evaluated (cs ++ cs') l.
Proof.
  intros (rest & -> & A & B) E. exists (rest ++ cs'). rewrite app_assoc. repeat split; auto.
Qed.
Lemma evaluated_app cs cs' l l' :
  evaluated cs l -> (forall s, In s cs -> ~ stops s) -> evaluated cs' l' -> evaluated (cs ++ cs') (l ++ l').
Proof.
  intros (rest & E & A & B) N (rest' & -> & A' & B').
  assert (rest = []) as ->.
  { destruct rest as [|x rest]; auto. destruct B as (a & s & -> & S); [discriminate|].
    exfalso. apply (N s); auto. rewrite E, !in_app_iff. cbn. auto. }
  rewrite app_nil_r in E. subst cs. exists rest'. rewrite app_assoc. repeat split; auto.
  - intros a s b H S. revert a H. induction l as [|x l IH]; intros a H; cbn in H.
    + eapply A'; eauto.
    + destruct a as [|y a]; injection H as <- H.
      * exfalso. apply (N x); auto. left; auto.
      * eapply IH; eauto.
        -- intros a0 s0 b0 H0 S0. exfalso. apply (N s0); auto. right. rewrite H0. apply in_app_iff. right; left; auto.
        -- intros R; elim R; auto.
        -- intros s0 I. apply N. right; auto.
  - intros R. destruct (B' R) as (a & s & -> & S). exists (l ++ a), s. rewrite app_assoc. auto.
Qed.

(** What is known after running the checks [cs]: [rep] describes messages and
    ending in terms of what was evaluated. *)
Definition report (cs : list site) (ok : bool) (r : run bool) : Prop :=
  exists l mss, evaluated cs l /\ Forall2 says l mss /\ fst r = concat mss /\
    ((snd r = Raised /\ exists s, In s l /\ stops s) \/
     (exists b, snd r = Returned b /\ l = cs /\ (forall s, In s cs -> ~ stops s) /\
        (b = true <-> ok = true /\ forall s, In s cs -> ~ rejects s))).

Lemma perform_list_spec cs l fs ok :
  (forall c, In c cs -> decided_site (Site c l fs)) ->
  report (map (fun c => Site c l fs) cs) ok (perform_list W cs l fs ok).
Proof.
  revert ok; induction cs as [|c cs IH]; intros ok D.
  - exists [], []. split; [apply evaluated_nil|]. split; [constructor|]. split; auto.
    right. exists ok. repeat split; auto; try contradiction. tauto.
  - cbn [map perform_list]. destruct (perform_spec c l fs) as (ms & Sy & H); [apply D; left; auto|].
    destruct H as [(E & St)|[(E & St & Rj)|(E & Rj)]]; rewrite E; cbn [seq].
    + exists [Site c l fs], [ms]. split; [apply evaluated_stop; auto|].
      split; [repeat constructor; auto|]. cbn. rewrite app_nil_r. split; auto.
      left. split; auto. exists (Site c l fs). split; auto.
    + destruct (IH (ok && false)) as (lst & mss & Ev & F & M & En); [intros; apply D; right; auto|].
      destruct (perform_list W cs l fs (ok && false)) as [ms' e]. cbn in *. subst ms'.
      exists (Site c l fs :: lst), (ms :: mss). split; [apply evaluated_go; auto|]. split; [constructor; auto|].
      split; auto. destruct En as [(-> & s & I & S)|(b & -> & -> & N & B)].
      * left. split; auto. exists s. split; auto. right; auto.
      * right. exists b. split; auto. split; auto. split; [intros s [<-|I]; auto|]. split.
        -- intros H. apply B in H. destruct H as [H _]. rewrite andb_false_r in H. discriminate.
        -- intros [_ H]. exfalso. apply (H (Site c l fs)); auto. left; auto.
    + assert (NS : ~ stops (Site c l fs)) by (intros S; apply Rj, stops_rejects; auto).
      destruct (IH (ok && true)) as (lst & mss & Ev & F & M & En); [intros; apply D; right; auto|].
      destruct (perform_list W cs l fs (ok && true)) as [ms' e]. cbn in *. subst ms'.
      exists (Site c l fs :: lst), (ms :: mss). split; [apply evaluated_go; auto|]. split; [constructor; auto|].
      split; auto. destruct En as [(-> & s & I & S)|(b & -> & -> & N & B)].
      * left. split; auto. exists s. split; auto. right; auto.
      * right. exists b. rewrite andb_true_r in B. split; auto. split; auto. split; [intros s [<-|I]; auto|].
        rewrite B. split; intros [H1 H2]; split; auto; [intros s [<-|I]; auto|intros s I; apply H2; right; auto].
Qed.

(** ** Values, objects *)

(** A weaker report, which allows evaluation to end early after a check that
    rejects: messages belong to evaluated checks, in order. *)
Inductive sublist {A} : list A -> list A -> Prop :=
| sub_nil : sublist [] []
| sub_skip x l m : sublist l m -> sublist l (x :: m)
| sub_take x l m : sublist l m -> sublist (x :: l) (x :: m).

Lemma sublist_refl {A} (l : list A) : sublist l l.
Proof. induction l; [constructor|apply sub_take; auto]. Qed.
Lemma sublist_nil {A} (l : list A) : sublist [] l.
Proof. induction l; constructor; auto. Qed.
Lemma sublist_app {A} (a b c d : list A) : sublist a b -> sublist c d -> sublist (a ++ c) (b ++ d).
Proof. induction 1; cbn; intros; [auto|apply sub_skip; auto|apply sub_take; auto]. Qed.
Lemma sublist_app_l {A} (a b c : list A) : sublist a b -> sublist a (b ++ c).
Proof. intros S. rewrite <- (app_nil_r a). apply sublist_app; auto. apply sublist_nil. Qed.
Lemma sublist_in {A} (a b : list A) x : sublist a b -> In x a -> In x b.
Proof. induction 1; cbn; intros H'; auto. destruct H' as [->|]; auto. Qed.

Definition weak_report (cs : list site) (ok : bool) (r : run bool) : Prop :=
  exists l mss, sublist l cs /\ Forall2 says l mss /\ fst r = concat mss /\
    ((snd r = Raised /\ exists s, In s l /\ stops s) \/
     (snd r = Returned false /\ (ok = false \/ exists s, In s l /\ rejects s)) \/
     (snd r = Returned true /\ ok = true /\ l = cs /\ forall s, In s cs -> ~ rejects s)).

Lemma evaluated_sublist cs l : evaluated cs l -> sublist l cs.
Proof. intros (rest & -> & _). apply sublist_app_l, sublist_refl. Qed.

Lemma rejects_dec s : decided_site s -> rejects s \/ ~ rejects s.
Proof.
  intros ((r & O) & _). destruct r as [| |e].
  - right. intros [[F _]|(e & U)]; [pose proof (outcome_fun _ _ _ O F)|pose proof (outcome_fun _ _ _ O U)]; discriminate.
  - destruct (ck_sev (s_check s)) eqn:S.
    + right. intros [[_ N]|(e & U)]; [congruence|pose proof (outcome_fun _ _ _ O U); discriminate].
    + left. left. split; auto. congruence.
    + left. left. split; auto. congruence.
  - left. right. eauto.
Qed.

Lemma rejects_find cs : (forall s, In s cs -> decided_site s) ->
  (exists s, In s cs /\ rejects s) \/ (forall s, In s cs -> ~ rejects s).
Proof.
  induction cs as [|c cs IH]; intros D.
  - right. intros s [].
  - destruct (rejects_dec c) as [R|R]; [apply D; left; auto|left; exists c; split; auto; left; auto|].
    destruct IH as [(s & I & S)|N]; [intros; apply D; right; auto|left; exists s; split; auto; right; auto|].
    right. intros s [<-|I]; auto.
Qed.

Lemma report_weak cs ok r : (forall s, In s cs -> decided_site s) -> report cs ok r -> weak_report cs ok r.
Proof.
  intros D (l & mss & Ev & F & M & En). exists l, mss. split; [apply evaluated_sublist; auto|].
  split; auto. split; auto. destruct En as [(E & s & I & S)|(b & E & -> & N & B)].
  - left. split; auto. exists s. auto.
  - right. destruct b; [right|left].
    + split; auto. destruct (proj1 B eq_refl). auto.
    + split; auto. destruct ok; auto. right. destruct (rejects_find cs D) as [|R]; auto.
      exfalso. assert (false = true); [apply B; auto|discriminate].
Qed.

Lemma weak_seq cs cs' ok r k :
  weak_report cs true r -> (forall b, weak_report cs' b (k b)) ->
  weak_report (cs ++ cs') ok (seq r (fun b => k (ok && b))).
Proof.
  intros (l & mss & Sl & F & M & En) K. destruct r as [ms e]. cbn in M. subst ms.
  destruct En as [(E & s & I & S)|[(E & R)|(E & _ & -> & N)]]; cbn in E; subst e; cbn [seq].
  - exists l, mss. split; [apply sublist_app_l; auto|]. split; auto. split; auto. left. split; auto.
    exists s. auto.
  - destruct R as [|(s & I & R)]; [discriminate|].
    destruct (K (ok && false)) as (l' & mss' & Sl' & F' & M' & En').
    destruct (k (ok && false)) as [ms' e']. cbn in *. subst ms'. rewrite andb_false_r in En'.
    exists (l ++ l'), (mss ++ mss'). split; [apply sublist_app; auto|].
    split; [apply Forall2_app; auto|]. split; [rewrite concat_app; auto|].
    destruct En' as [(-> & s' & I' & S')|[(-> & R')|(_ & H & _)]]; [| |discriminate].
    + left. split; auto. exists s'. split; auto. apply in_app_iff; auto.
    + right. left. split; auto. right. exists s. split; auto. apply in_app_iff; auto.
  - rewrite andb_true_r.
    destruct (K ok) as (l' & mss' & Sl' & F' & M' & En').
    destruct (k ok) as [ms' e']. cbn in *. subst ms'.
    exists (cs ++ l'), (mss ++ mss'). split; [apply sublist_app; auto|].
    split; [apply Forall2_app; auto|]. split; [rewrite concat_app; auto|].
    destruct En' as [(-> & s' & I' & S')|[(-> & R')|(-> & H & -> & N')]].
    + left. split; auto. exists s'. split; auto. apply in_app_iff; auto.
    + right. left. split; auto. destruct R' as [|(s' & I' & R')]; auto. right. exists s'. split; auto. apply in_app_iff; auto.
    + right. right. split; auto. split; auto. split; auto. intros s J. apply in_app_iff in J as [J|J]; auto.
Qed.

Lemma strong_seq cs cs' ok r k :
  report cs true r -> (forall b, report cs' b (k b)) ->
  report (cs ++ cs') ok (seq r (fun b => k (ok && b))).
Proof.
  intros (l & mss & Ev & F & M & En) K. destruct r as [ms e]. cbn in M. subst ms.
  destruct En as [(E & s & I & S)|(b & E & -> & N & B)]; cbn in E; subst e; cbn [seq].
  - exists l, mss. split.
    { apply evaluated_app_stop; auto. destruct Ev as (rest & _ & A & _).
      apply in_split in I as (x & y & ->). rewrite (A x s y eq_refl S). exists x, s. auto. }
    split; auto. split; auto. left. split; auto. exists s. auto.
  - destruct (K (ok && b)) as (l' & mss' & Ev' & F' & M' & En').
    destruct (k (ok && b)) as [ms' e']. cbn in *. subst ms'.
    exists (cs ++ l'), (mss ++ mss'). split; [apply evaluated_app; auto|].
    split; [apply Forall2_app; auto|]. split; [rewrite concat_app; auto|].
    destruct En' as [(-> & s' & I' & S')|(b' & -> & -> & N' & B')].
    + left. split; auto. exists s'. split; auto. apply in_app_iff; auto.
    + right. exists b'. split; auto. split; auto. split.
      { intros s J. apply in_app_iff in J as [J|J]; auto. }
      rewrite B', andb_true_iff, B. split.
      * intros ((H1 & _ & H2) & H3). split; auto. intros s J. apply in_app_iff in J as [J|J]; auto.
      * intros (H1 & H2). repeat split; auto; intros s J; apply H2; apply in_app_iff; auto.
Qed.

Lemma report_nil ok : report [] ok (ret ok).
Proof.
  exists [], []. split; [apply evaluated_nil|]. split; [constructor|]. split; auto. right. exists ok.
  split; auto. split; auto. split; [intros s []|]. split; [intros H; split; auto; intros s []|tauto].
Qed.

Lemma seq_ret (r : run bool) : seq r (fun b => ret b) = r.
Proof. destruct r as [ms [a| |]]; cbn; rewrite ?app_nil_r; auto. Qed.

Lemma type_checks_weak a v :
  shaped a v -> (forall s, In s (value_sites a v) -> decided_site s) ->
  weak_report (value_sites a v) true (perform_type_checks W G a v).
Proof.
  assert (Nil : weak_report [] true (ret true)) by (apply report_weak; [intros s []|apply report_nil]).
  revert v; induction a as [| | | | |e|u|r|i ms|i lo hi el IH]; intros v Sh D; try exact Nil.
  - destruct v; try contradiction; try exact Nil. cbn in *. unfold tup.
    destruct (nth_error (tups G) u) as [ut|] eqn:E; [|apply nth_error_None in E; lia].
    apply report_weak; auto. apply perform_list_spec. intros c I. apply D. apply in_map_iff. eauto.
  - destruct v as [ | | | l a vs | | ]; try contradiction; try exact Nil. cbn in Sh, D |- *.
    induction vs as [|x vs IHvs]; [exact Nil|]. inversion Sh as [|? ? Sx Sv]; subst. cbn [flat_map] in D |- *.
    specialize (IHvs Sv (fun s I => D s (proj2 (in_app_iff _ _ _) (or_intror I)))).
    specialize (IH x Sx (fun s I => D s (proj2 (in_app_iff _ _ _) (or_introl I)))).
    destruct IH as (lx & mss & Sl & F & M & En). destruct (perform_type_checks W G el x) as [msx e]. cbn in M. subst msx.
    destruct En as [(E & s & I & S)|[(E & R)|(E & _ & -> & N)]]; cbn in E; subst e; cbn [seq].
    + exists lx, mss. split; [apply sublist_app_l; auto|]. split; auto. split; auto. left. eauto.
    + destruct R as [|(s & I & R)]; [discriminate|]. cbn. rewrite app_nil_r.
      exists lx, mss. split; [apply sublist_app_l; auto|]. split; auto. split; auto. right; left. eauto.
    + set (rest := (fix all (vs : list vexpr) : run bool := match vs with [] => ret true
          | x0 :: vs' => seq (perform_type_checks W G el x0) (fun r => if r then all vs' else ret false) end) vs) in *.
      destruct IHvs as (l' & mss' & Sl' & F' & M' & En'). destruct rest as [ms' e']. cbn in *. subst ms'.
      exists (value_sites el x ++ l'), (mss ++ mss'). split; [apply sublist_app; auto|].
      split; [apply Forall2_app; auto|]. split; [rewrite concat_app; auto|].
      destruct En' as [(-> & s' & I' & S')|[(-> & R')|(-> & H & -> & N')]].
      * left. split; auto. exists s'. split; auto. apply in_app_iff; auto.
      * right. left. split; auto. destruct R' as [|(s' & I' & R')]; auto. right. exists s'. split; auto. apply in_app_iff; auto.
      * right. right. split; auto. split; auto. split; auto. intros s J. apply in_app_iff in J as [J|J]; auto.
Qed.

(** The type is not an array (of arrays ...) of tuples. *)
Fixpoint no_tuples (a : ty) : Prop :=
  match a with TTup _ => False | TArr _ _ _ el => no_tuples el | _ => True end.
Definition simple_type (a : ty) : Prop := match a with TTup _ => True | _ => no_tuples a end.

Lemma no_tuples_checks a v : no_tuples a -> shaped a v ->
  value_sites a v = [] /\ perform_type_checks W G a v = ret true.
Proof.
  revert v; induction a as [| | | | |e|u|r|i ms|i lo hi el IH]; intros v N Sh; try contradiction; auto.
  destruct v as [ | | | l a vs | | ]; try contradiction; auto. cbn in *.
  induction vs as [|x vs IHvs]; cbn; auto. inversion Sh as [|? ? Sx Sv]; subst.
  destruct (IH x N Sx) as [-> ->]. destruct (IHvs Sv) as [-> E]. cbn. rewrite E. auto.
Qed.
Lemma type_checks_strong a v : simple_type a ->
  shaped a v -> (forall s, In s (value_sites a v) -> decided_site s) ->
  report (value_sites a v) true (perform_type_checks W G a v).
Proof.
  intros S Sh D. destruct a as [| | | | |e|u|r|i ms|i lo hi el]; try apply report_nil.
  - destruct v; try contradiction; try apply report_nil. cbn in *. unfold tup.
    destruct (nth_error (tups G) u) as [ut|] eqn:E; [|apply nth_error_None in E; lia].
    apply perform_list_spec. intros c I. apply D. apply in_map_iff. eauto.
  - destruct (no_tuples_checks _ v S Sh) as [-> ->]. apply report_nil.
Qed.

Lemma component_checks_weak cs fs ok :
  (forall c, In c cs -> exists v, assoc (c_name c) fs = Some v /\ shaped (c_typ c) v) ->
  (forall s, In s (flat_map (component_sites fs) cs) -> decided_site s) ->
  weak_report (flat_map (component_sites fs) cs) ok (component_checks W G cs fs ok).
Proof.
  revert ok; induction cs as [|c cs IH]; intros ok Sh D.
  - apply report_weak; [intros s []|apply report_nil].
  - cbn [component_checks flat_map] in *. destruct (Sh c) as (v & E & Sv); [left; auto|].
    unfold component_sites at 1. unfold component_sites at 1 in D. rewrite E in *. apply weak_seq.
    + apply type_checks_weak; auto. intros s I. apply D. apply in_app_iff; auto.
    + intros b. apply IH; [intros; apply Sh; right; auto|]. intros s I. apply D. apply in_app_iff; auto.
Qed.
Lemma component_checks_strong cs fs ok :
  (forall c, In c cs -> simple_type (c_typ c)) ->
  (forall c, In c cs -> exists v, assoc (c_name c) fs = Some v /\ shaped (c_typ c) v) ->
  (forall s, In s (flat_map (component_sites fs) cs) -> decided_site s) ->
  report (flat_map (component_sites fs) cs) ok (component_checks W G cs fs ok).
Proof.
  revert ok; induction cs as [|c cs IH]; intros ok Si Sh D.
  - apply report_nil.
  - cbn [component_checks flat_map] in *. destruct (Sh c) as (v & E & Sv); [left; auto|].
    unfold component_sites at 1. unfold component_sites at 1 in D. rewrite E in *. apply strong_seq.
    + apply type_checks_strong; auto; [apply Si; left; auto|]. intros s I. apply D. apply in_app_iff; auto.
    + intros b. apply IH; [intros; apply Si; right; auto|intros; apply Sh; right; auto|].
      intros s I. apply D. apply in_app_iff; auto.
Qed.

Definition decided_object (o : object) : Prop :=
  shaped_object o /\ forall s, In s (object_sites o) -> decided_site s.

Lemma object_weak o : decided_object o -> weak_report (object_sites o) true (perform_checks W G o).
Proof.
  intros (Sh & D). unfold perform_checks.
  apply (weak_seq _ _ true _ (fun ok => perform_list W (iter_checks G (o_typ o)) (o_loc o) (fields_of o) ok)).
  - apply component_checks_weak; auto. intros s I. apply D. apply in_app_iff; auto.
  - intros b. apply report_weak.
    + intros s I. apply D. apply in_app_iff; auto.
    + apply perform_list_spec. intros c I. apply D. apply in_app_iff. right. unfold record_sites. apply in_map_iff. eauto.
Qed.
Lemma object_strong o : (forall c, In c (all_components G (o_typ o)) -> simple_type (c_typ c)) ->
  decided_object o -> report (object_sites o) true (perform_checks W G o).
Proof.
  intros Si (Sh & D). unfold perform_checks.
  apply (strong_seq _ _ true _ (fun ok => perform_list W (iter_checks G (o_typ o)) (o_loc o) (fields_of o) ok)).
  - apply component_checks_strong; auto. intros s I. apply D. apply in_app_iff; auto.
  - intros b. apply perform_list_spec. intros c I. apply D. apply in_app_iff. right. unfold record_sites. apply in_map_iff. eauto.
Qed.

(** An object is accepted exactly if no check rejects it. *)
Lemma object_accepted o : decided_object o ->
  (snd (perform_checks W G o) = Returned true <-> forall s, In s (object_sites o) -> ~ rejects s) /\
  snd (perform_checks W G o) <> Broken.
Proof.
  intros D. destruct (object_weak o D) as (l & mss & Sl & _ & _ & En). split.
  - split.
    + intros E. rewrite E in En. destruct En as [(H & _)|[(H & _)|(_ & _ & _ & N)]]; try discriminate. auto.
    + intros N. destruct En as [(_ & s & I & S)|[(_ & [H|(s & I & R)])|(E & _)]]; auto; try discriminate.
      * exfalso. apply (N s); [eapply sublist_in; eauto|apply stops_rejects; auto].
      * exfalso. apply (N s); [eapply sublist_in; eauto|auto].
  - destruct En as [(-> & _)|[(-> & _)|(-> & _)]]; discriminate.
Qed.

Definition bad_message (m : cmsg) : bool := match m with M_warning _ _ _ => false | _ => true end.

Lemma says_bad s ms : says s ms -> (existsb bad_message ms = true <-> rejects s).
Proof.
  intros H; inversion H as [O|l O S P|l O S P|l O S P|e O]; subst; cbn; split; intros X; try discriminate; auto.
  - destruct X as [[F _]|(e & U)]; [pose proof (outcome_fun _ _ _ O F)|pose proof (outcome_fun _ _ _ O U)]; discriminate.
  - destruct X as [[F N]|(e & U)]; [congruence|pose proof (outcome_fun _ _ _ O U); discriminate].
  - left. split; auto. congruence.
  - left. split; auto. congruence.
  - right. eauto.
Qed.
Lemma says_list_bad l mss : Forall2 says l mss ->
  (existsb bad_message (concat mss) = true <-> exists s, In s l /\ rejects s).
Proof.
  induction 1 as [|s ms l mss H F IH]; cbn.
  - split; [discriminate|intros (s & [] & _)].
  - rewrite existsb_app, orb_true_iff, IH, (says_bad _ _ H). split.
    + intros [R|(s' & I & R)]; eauto.
    + intros (s' & [<-|I] & R); eauto.
Qed.

(** An object that is not accepted leaves at least one error; an accepted
    one only warnings. *)
Lemma object_messages o : decided_object o ->
  (snd (perform_checks W G o) = Returned true <-> existsb bad_message (fst (perform_checks W G o)) = false).
Proof.
  intros D. destruct (object_weak o D) as (l & mss & Sl & F & M & En). rewrite M.
  pose proof (says_list_bad _ _ F) as B.
  destruct En as [(E & s & I & S)|[(E & [H|(s & I & R)])|(E & _ & -> & N)]]; try discriminate; rewrite E.
  - split; [discriminate|]. intros X. exfalso.
    assert (existsb bad_message (concat mss) = true); [apply B; exists s; split; auto; apply stops_rejects; auto|congruence].
  - split; [discriminate|]. intros X. exfalso.
    assert (existsb bad_message (concat mss) = true); [apply B; exists s; split; auto|congruence].
  - split; auto. intros _. destruct (existsb bad_message (concat mss)) eqn:X; auto.
    destruct (proj1 B eq_refl) as (s & I & R). exfalso. apply (N s); auto.
Qed.

(** ** All objects *)
Lemma perform_all_spec os ok : (forall o, In o os -> decided_object o) ->
  fst (perform_all W G os ok) = flat_map (fun o => fst (perform_checks W G o)) os /\
  exists b, snd (perform_all W G os ok) = Returned b /\
    (b = true <-> ok = true /\ forall o, In o os -> snd (perform_checks W G o) = Returned true).
Proof.
  revert ok; induction os as [|o os IH]; intros ok D.
  - cbn. split; auto. exists ok. split; auto. split; [intros H; split; auto; intros ? []|tauto].
  - cbn [perform_all flat_map].
    destruct (object_accepted o) as [_ NB]; [apply D; left; auto|].
    assert (D' : forall o, In o os -> decided_object o) by (intros; apply D; right; auto).
    destruct (perform_checks W G o) as [ms [r| |]] eqn:E; cbn [seq fst snd] in *; [| |congruence].
    + destruct (IH (ok && r) D') as (F & b & S & B). destruct (perform_all W G os (ok && r)) as [ms' e]. cbn in *.
      subst. split; auto. exists b. split; auto. rewrite B, andb_true_iff. split.
      * intros ((-> & ->) & H). split; auto. intros o' [<-|I]; auto. rewrite E. auto.
      * intros (-> & H). assert (Hr := H o (or_introl eq_refl)). rewrite E in Hr. cbn in Hr. injection Hr as ->.
        auto.
    + destruct (IH false D') as (F & b & S & B). destruct (perform_all W G os false) as [ms' e]. cbn in *.
      subst. split; auto. exists b. split; auto. split.
      * intros H. apply B in H as [H _]. discriminate.
      * intros (_ & H). assert (Hr := H o (or_introl eq_refl)). rewrite E in Hr. discriminate.
Qed.
End SPEC.
