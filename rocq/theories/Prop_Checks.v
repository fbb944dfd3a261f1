(** Property C21: severities of user-defined checks. *)
From Verif Require Import Base Lexer Ast Eval Checks TypesProofs ChecksProofs Messages MessagesProofs.
Open Scope Z_scope.

(** C21: one block of checks on one object.  A prefix of the checks is
    evaluated, which ends at the first fatal failure (or error of the
    evaluation); every evaluated check contributes its message; the block
    succeeds iff no error or fatal check fails. *)
Theorem C21_check_list :
  forall W cs l fields,
    (forall c, In c cs -> decided_site W (Site c l fields)) ->
    let sites := map (fun c => Site c l fields) cs in
    exists done messages,
      evaluated W sites done /\
      Forall2 (says W) done messages /\
      fst (perform_list W cs l fields true) = concat messages /\
      ((snd (perform_list W cs l fields true) = Raised /\ exists s, In s done /\ stops W s) \/
       (exists ok, snd (perform_list W cs l fields true) = Returned ok /\ done = sites /\
          (forall s, In s sites -> ~ stops W s) /\
          (ok = true <-> forall s, In s sites -> ~ rejects W s))).
Proof.
  intros W cs l fields D sites. destruct (perform_list_spec W cs l fields true D) as (done & ms & E & F & M & En).
  exists done, ms. split; auto. split; auto. split; auto. destruct En as [?|(ok & A & B & C & H)]; auto.
  right. exists ok. split; auto. split; auto. split; auto. rewrite H. tauto.
Qed.
Print Assumptions C21_check_list.

(** C21: a whole object succeeds iff none of its checks rejects it. *)
Theorem C21_object_accepted :
  forall W G o, decided_object W G o ->
    (snd (perform_checks W G o) = Returned true <->
     forall s, In s (object_sites G o) -> ~ rejects W s) /\
    snd (perform_checks W G o) <> Broken.
Proof. intros W G o. apply object_accepted. Qed.
Print Assumptions C21_object_accepted.

(** C21: if no component is an array of tuples, the checks of a whole object
    behave like one list: the tuples first, then base types, then the type. *)
Theorem C21_object_order :
  forall W G o, decided_object W G o ->
    (forall c, In c (all_components G (o_typ o)) -> simple_type (c_typ c)) ->
    report W (object_sites G o) true (perform_checks W G o).
Proof. intros W G o D S. apply object_strong; auto. Qed.
Print Assumptions C21_object_order.

(** C21: an object that fails leaves an error, one that succeeds only
    warnings. *)
Theorem C21_object_messages :
  forall W G o, decided_object W G o ->
    (snd (perform_checks W G o) = Returned true <->
     forall m, In m (fst (perform_checks W G o)) -> exists l msg extra, m = M_warning l msg extra).
Proof.
  intros W G o D. rewrite (object_messages W G o D). split.
  - intros E m I. destruct m as [l x e| |]; eauto; exfalso;
      assert (X : existsb bad_message (fst (perform_checks W G o)) = true) by
        (apply existsb_exists; eexists; split; [exact I|reflexivity]); congruence.
  - intros H. destruct (existsb bad_message _) eqn:X; auto. apply existsb_exists in X as (m & I & B).
    destruct (H m I) as (l & x & e & ->). discriminate.
Qed.
Print Assumptions C21_object_messages.

(** C21: all objects are checked, also after a fatal failure, and the whole
    step succeeds iff every object does. *)
Theorem C21_all_objects :
  forall W G os, (forall o, In o os -> decided_object W G o) ->
    fst (perform_all W G os true) = flat_map (fun o => fst (perform_checks W G o)) os /\
    exists ok, snd (perform_all W G os true) = Returned ok /\
      (ok = true <-> forall o, In o os -> snd (perform_checks W G o) = Returned true).
Proof.
  intros W G os D. destruct (perform_all_spec W G os true D) as (A & b & B & C). split; auto.
  exists b. split; auto. rewrite C. tauto.
Qed.
Print Assumptions C21_all_objects.

(** The calls of the message handler that belong to the messages. *)
Definition to_call (render : loc -> location) (say : problem -> text) (m : cmsg) : call :=
  match m with
  | M_warning l x e => Warning (render l) x e true
  | M_error l x e fatal => Error (render l) x e fatal true
  | M_system (l, p) => Error (render l) (say p) None true false
  end.

(** C21 with C15: the error counter stays at zero iff the step succeeds. *)
Theorem C21_error_counter :
  forall W G os cfg render say, (forall o, In o os -> decided_object W G o) ->
    forall s es, Messages.run cfg mh_init (map (to_call render say) (fst (perform_all W G os true))) = (s, es) ->
      (errors s = 0 <-> snd (perform_all W G os true) = Returned true).
Proof.
  intros W G os cfg render say D s es R.
  destruct (perform_all_spec W G os true D) as (A & b & B & C).
  set (ms := fst (perform_all W G os true)) in *.
  assert (Ag : agrees [] mh_init) by (intros k; cbn; tauto).
  destruct (run_spec cfg _ [] mh_init s es Ag R) as (n & shown & _ & E & _).
  assert (Md : made (map (to_call render say) ms) = map (to_call render say) ms).
  { clear. induction ms as [|m ms IH]; auto. cbn. rewrite IH. destruct m as [| |[l p]]; auto. }
  rewrite Md in E. cbn in E.
  assert (Cn : count is_error (map (to_call render say) ms) = 0 <-> existsb bad_message ms = false).
  { clear. unfold count. induction ms as [|m ms IH]; [cbn; tauto|].
    destruct m as [| |[l p]]; cbn in *; auto; split; intros H; try discriminate; lia. }
  rewrite E, Z.add_0_l, Cn, A, B.
  assert (Ob : existsb bad_message (flat_map (fun o => fst (perform_checks W G o)) os) = false <->
               forall o, In o os -> snd (perform_checks W G o) = Returned true).
  { clear - D. induction os as [|o os IH]; cbn.
    - split; auto. intros _ o [].
    - rewrite existsb_app, orb_false_iff, IH by (intros; apply D; right; auto).
      rewrite <- (object_messages W G o) by (apply D; left; auto). split.
      + intros [H1 H2] o' [<-|I]; auto.
      + intros H. split; [apply H; left; auto|intros o' I; apply H; right; auto]. }
  rewrite Ob. split.
  - intros H. f_equal. apply C. auto.
  - intros H. injection H as ->. apply C. auto.
Qed.
Print Assumptions C21_error_counter.

(** ** Example: a record with a tuple; the object fails a warning, an error
    and a fatal check; the last check is not evaluated. *)
Definition xl : loc := Loc 0 (Sref 1 1 0 0).
Definition xl2 : loc := Loc 0 (Sref 2 1 9 9).
Definition xW : world := World [] (fun _ _ => None).
Definition cmp (op : binop) (n : text) (k : Z) : expr :=
  EBinary xl (Some TBool) op (EName xl TInt n false false) (ELit xl (LInt k)).
Definition xG : types :=
  Types [RecType 0 (t "R") None [Comp (t "n") TInt false (TRec 0); Comp (t "u") (TTup 0) false (TRec 0);
                                 Comp (t "us") (TArr 0 0 None (TTup 0)) false (TRec 0)]
                 [] false false
                 [Ast.Check Sev_warning (cmp B_gt (t "n") 5) (Some (t "n")) xl (t "w") None;
                  Ast.Check Sev_error (cmp B_gt (t "n") 6) None xl (t "e") None;
                  Ast.Check Sev_fatal (cmp B_gt (t "n") 7) None xl (t "f") (Some (t "more"));
                  Ast.Check Sev_error (cmp B_gt (t "n") 8) None xl (t "g") None]]
        [TupType 0 (t "U") [Comp (t "a") TInt false (TTup 0)] []
                 [Ast.Check Sev_error (cmp B_gt (t "a") 0) None xl (t "t") None]] [].
Definition tupv (l : loc) (k : Z) : vexpr := XTup l 0 [(t "a", XLit l (LInt k) [])].
Definition xo (n a : Z) (us : list vexpr) : object :=
  Object 0 (t "o") xl 0 [(t "n", (1%nat, XLit xl2 (LInt n) [])); (t "u", (2%nat, tupv xl2 a));
                         (t "us", (3%nat, XArr xl (TArr 0 0 None (TTup 0)) us))].

Lemma xo_decided n a ks : decided_object xW xG (xo n a (map (tupv xl2) ks)).
Proof.
  split.
  - intros c [<-|[<-|[<-|[]]]]; eexists; (split; [reflexivity|]); cbn; auto.
    apply Forall_forall. intros v I. apply in_map_iff in I as (k & <- & _). cbn. lia.
  - assert (Tu : forall k s, In s (value_sites xG (TTup 0) (tupv xl2 k)) -> decided_site xW s).
    { intros k s [<-|[]]. split.
      - destruct (num_lt (NInt 0) (NInt k)) eqn:E; eexists.
        + eapply out_true; cbn; [reflexivity|]. cbn. rewrite E. reflexivity.
        + eapply out_false; cbn; [reflexivity|]. cbn. rewrite E. reflexivity.
      - eexists. apply place_object. reflexivity. }
    assert (Re : forall c k, ck_expr c = cmp B_gt (t "n") k -> ck_anchor c = None \/ ck_anchor c = Some (t "n") ->
              decided_site xW (Site c xl (fields_of (xo n a (map (tupv xl2) ks))))).
    { intros c k E A. split.
      - destruct (num_lt (NInt k) (NInt n)) eqn:L; eexists.
        + eapply out_true; [cbn; rewrite E; cbn; reflexivity|cbn; rewrite L; reflexivity].
        + eapply out_false; [cbn; rewrite E; cbn; reflexivity|cbn; rewrite L; reflexivity].
      - destruct A as [A|A]; eexists; [apply place_object; auto|eapply place_anchor; eauto; reflexivity]. }
    intros s I. unfold object_sites in I. apply in_app_iff in I as [I|I].
    + apply in_flat_map in I as (c & [<-|[<-|[<-|[]]]] & I); cbn in I; auto.
      * contradiction.
      * apply (Tu a). exact I.
      * apply in_flat_map in I as (v & Iv & I). apply in_map_iff in Iv as (k & <- & _). apply (Tu k). exact I.
    + unfold record_sites in I. apply in_map_iff in I as (c & <- & I).
      destruct I as [<-|[<-|[<-|[<-|[]]]]]; eapply Re; cbn; auto.
Qed.

Example C21_example :
  decided_object xW xG (xo 3 0 []) /\
  perform_checks xW xG (xo 3 0 []) =
  ([M_error xl2 (t "t") None false; M_warning xl2 (t "w") None; M_error xl (t "e") None false;
    M_error xl (t "f") (Some (t "more")) true], Raised) /\
  perform_checks xW xG (xo 9 1 []) = ([], Returned true) /\
  snd (perform_all xW xG [xo 3 0 []; xo 9 1 []] true) = Returned false.
Proof. split; [apply (xo_decided 3 0 [])|]. repeat split; reflexivity. Qed.

(** The manual says that all applicable checks, including those of tuples,
    are evaluated, and that further checks run after an error.  In an array
    of tuples, elements after the first one that fails are not checked... *)
Theorem C21_array_elements_refuted :
  exists W G o, decided_object W G o /\
    (forall s, In s (object_sites G o) -> ~ stops W s) /\
    exists s, In s (object_sites G o) /\ rejects W s /\
      forall ms, says W s ms -> exists m, In m ms /\ ~ In m (fst (perform_checks W G o)).
Proof.
  set (us := [tupv xl2 0; XTup xl 0 [(t "a", XLit xl (LInt 0) [])]]).
  assert (Dv : forall l, decided_site xW (Site (Ast.Check Sev_error (cmp B_gt (t "a") 0) None xl (t "t") None)
                                    l [(t "a", XLit l (LInt 0) [])])).
  { intros l. split; eexists; [eapply out_false; cbn; reflexivity|apply place_object; reflexivity]. }
  assert (St : forall s, In s (object_sites xG (xo 9 1 us)) -> decided_site xW s /\ ~ stops xW s).
  { intros s I. cbn in I.
    assert (D : decided_site xW s).
    { destruct I as [<-|[<-|[<-|[<-|[<-|[<-|[<-|[]]]]]]]];
        (split; eexists; [first [eapply out_true; cbn; reflexivity|eapply out_false; cbn; reflexivity]
                         |first [apply place_object; reflexivity|eapply place_anchor; reflexivity]]). }
    split; auto.
    intros [[F S]|(e & U)];
      destruct I as [<-|[<-|[<-|[<-|[<-|[<-|[<-|[]]]]]]]]; cbn in *; try discriminate.
    all: try (inversion F as [|v a E V| |]; subst; cbn in E; injection E as <-; discriminate).
    all: inversion U as [| |v l E V|]; subst;
      match goal with H : evaluate _ _ _ = _ |- _ => cbn in H; try discriminate; injection H as <- end; discriminate. }
  exists xW, xG, (xo 9 1 us). split; [|split].
  - split; [|intros s I; apply St; auto].
    intros c [<-|[<-|[<-|[]]]]; eexists; (split; [reflexivity|]); cbn; auto.
    repeat constructor; cbn; lia.
  - intros s I. apply St; auto.
  - eexists (Site (Ast.Check Sev_error (cmp B_gt (t "a") 0) None xl (t "t") None) xl [(t "a", XLit xl (LInt 0) [])]).
    split; [cbn; auto|]. split.
    + left. split; [eapply out_false; cbn; reflexivity|discriminate].
    + intros ms H. assert (ms = [M_error xl (t "t") None false]) as ->.
      { inversion H as [O|l O S P|l O S P|l O S P|e O]; subst; try discriminate.
        - inversion O as [v a E V| | |]; subst. cbn in E. injection E as <-. discriminate.
        - inversion P; subst; auto. discriminate.
        - inversion O as [| |v l E V|e' E]; subst; cbn in E; try discriminate. injection E as <-. discriminate. }
      eexists. split; [left; reflexivity|]. cbn. intros [X|[]]. discriminate.
Qed.
Print Assumptions C21_array_elements_refuted.

(** ... and a tuple inside a tuple is never checked: an object can be
    accepted although the check of an inner tuple fails. *)
Fixpoint nested_sites (fuel : nat) (G : types) (a : ty) (v : vexpr) : list site :=
  match fuel with
  | O => []
  | S f =>
      match a, v with
      | TTup u, XTup l _ vs =>
          match nth_error (tups G) u with
          | Some ut =>
              map (fun c => Site c l vs) (u_checks ut) ++
              flat_map (fun c => match assoc (c_name c) vs with
                                 | Some w => nested_sites f G (c_typ c) w
                                 | None => [] end) (u_comps ut)
          | None => []
          end
      | TArr _ _ _ el, XArr _ _ vs => flat_map (nested_sites f G el) vs
      | _, _ => []
      end
  end.
Definition nG : types :=
  Types [RecType 0 (t "R") None [Comp (t "u") (TTup 1) false (TRec 0)] [] false false []]
        [TupType 0 (t "U") [Comp (t "a") TInt false (TTup 0)] []
                 [Ast.Check Sev_error (cmp B_gt (t "a") 0) None xl (t "t") None];
         TupType 0 (t "V") [Comp (t "x") (TTup 0) false (TTup 1)] [] []] [].
Definition no : object :=
  Object 0 (t "o") xl 0 [(t "u", (1%nat, XTup xl 1 [(t "x", tupv xl2 0)]))].
Theorem C21_nested_tuple_refuted :
  exists W G o c v fuel s,
    decided_object W G o /\ In c (all_components G (o_typ o)) /\ assoc (c_name c) (fields_of o) = Some v /\
    In s (nested_sites fuel G (c_typ c) v) /\ rejects W s /\
    perform_checks W G o = ([], Returned true).
Proof.
  exists xW, nG, no, (Comp (t "u") (TTup 1) false (TRec 0)). do 2 eexists. exists
    (Site (Ast.Check Sev_error (cmp B_gt (t "a") 0) None xl (t "t") None) xl2 [(t "a", XLit xl2 (LInt 0) [])]).
  split; [|split; [|split; [|split; [|split]]]].
  - split.
    + intros c [<-|[]]. eexists. split; [reflexivity|]. cbn. lia.
    + intros s [].
  - left; auto.
  - reflexivity.
  - instantiate (1 := 3%nat). left. reflexivity.
  - left. split; [eapply out_false; cbn; reflexivity|discriminate].
  - reflexivity.
Qed.
Print Assumptions C21_nested_tuple_refuted.
