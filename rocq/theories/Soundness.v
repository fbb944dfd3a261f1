(** Type soundness of the evaluation of checks. *)
From Coq Require Import Relations.
From Verif Require Import Base Lexer PyText MathModel MathProofs Ast Eval TypesProofs Typing.
Open Scope Z_scope.

(** Induction over expressions, through lists. *)
Lemma expr_ind2 (P : expr -> Prop) :
  (forall l, P (ENull l)) -> (forall l k, P (ELit l k)) ->
  (forall l a n qv opt, P (EName l a n qv opt)) ->
  (forall l a op e, P e -> P (EUnary l a op e)) ->
  (forall l a op e f, P e -> P f -> P (EBinary l a op e f)) ->
  (forall l c p un uv, P p -> P (EField l c p un uv)) ->
  (forall l a lo hi, P a -> P lo -> P hi -> P (ERange l a lo hi)) ->
  (forall l es, (forall e, In e es -> P e) -> P (EOneof l es)) ->
  (forall l acts els, (forall c x, In (c, x) acts -> P c /\ P x) -> P els -> P (ECond l acts els)) ->
  (forall l un v ls src body, P body -> P (EQuant l un v ls src body)) ->
  forall e, P e.
Proof.
  intros H1 H2 H3 H4 H5 H6 H7 H8 H9 H10. fix IH 1. intros [ | | | | | | |l es|l acts els| ].
  - apply H1.
  - apply H2.
  - apply H3.
  - apply H4; apply IH.
  - apply H5; apply IH.
  - apply H6; apply IH.
  - apply H7; apply IH.
  - apply H8. revert es. fix IHl 1. intros [|e es] x I; [contradiction|].
    destruct I as [<-|I]; [apply IH|apply (IHl es x I)].
  - apply H9; [|apply IH]. revert acts. fix IHl 1. intros [|[c x] acts] c' x' I; [contradiction|].
    destruct I as [E|I]; [injection E as <- <-; split; apply IH|apply (IHl acts c' x' I)].
  - apply H10; apply IH.
Qed.

Lemma assoc_map_snd {A B} (f : A -> B) k l :
  assoc k (map (fun '(n, x) => (n, f x)) l) = option_map f (assoc k l).
Proof. induction l as [|[n x] l IH]; cbn; auto. destruct (text_eqb n k); auto. Qed.

(** ** Static evaluation *)

Lemma static_eval W e : forall v, evaluate W None e = Ok v -> forall d, evaluate W (Some d) e = Ok v.
Proof.
  induction e using expr_ind2; intros w E d; cbn [evaluate] in *; try discriminate; auto.
  - destruct (evaluate W None e) as [x| | |]; try discriminate. rewrite (IHe x eq_refl d). exact E.
  - destruct (evaluate W None e1) as [x| | |]; try discriminate. rewrite (IHe1 x eq_refl d). cbn [bind] in *.
    destruct (negb (is_eq op) && _); [discriminate|].
    assert (St : forall w, (do vr <- evaluate W None e2;
            (if negb (is_eq op) && match v_val vr with Some _ => false | None => true end
             then Err (v_loc vr, P_null_rhs) else eval_binary W l a op x vr)) = Ok w ->
          (do vr <- evaluate W (Some d) e2;
            (if negb (is_eq op) && match v_val vr with Some _ => false | None => true end
             then Err (v_loc vr, P_null_rhs) else eval_binary W l a op x vr)) = Ok w).
    { intros w' E'. destruct (evaluate W None e2) as [y| | |]; try discriminate. rewrite (IHe2 y eq_refl d). exact E'. }
    destruct op; try (apply St; exact E); destruct (v_val x) as [[p b]|]; try discriminate;
      destruct (py_bool p) as [[|]| | |]; try discriminate; cbn [bind] in *; auto.
  - destruct (evaluate W None e) as [x| | |]; try discriminate. rewrite (IHe x eq_refl d). cbn [bind] in *. exact E.
  - destruct (evaluate W None e1) as [x| | |]; try discriminate. rewrite (IHe1 x eq_refl d). cbn [bind] in *.
    destruct (v_val x) as [[p b]|]; try discriminate.
    destruct (evaluate W None e2) as [y| | |]; try discriminate. rewrite (IHe2 y eq_refl d). cbn [bind] in *.
    destruct (v_val y) as [[p' b']|]; try discriminate.
    destruct (evaluate W None e3) as [z| | |]; try discriminate. rewrite (IHe3 z eq_refl d). cbn [bind] in *. exact E.
  - match type of E with (bind ?g _) = _ => set (go := g) in *; destruct go as [vs| | |] eqn:Eg; try discriminate end.
    match goal with |- (bind ?g _) = _ => assert (Eg' : g = Ok vs); [|rewrite Eg'; exact E] end.
    clear E. subst go. revert vs Eg. induction es as [|e es IH]; intros vs Eg; auto.
    destruct (evaluate W None e) as [x| | |] eqn:Ee; try discriminate. cbn [bind] in Eg.
    rewrite (H e (or_introl eq_refl) x Ee d). cbn [bind].
    match type of Eg with (bind ?g _) = _ => destruct g as [xs| | |] eqn:Ex; try discriminate end.
    rewrite (IH (fun e' I => H e' (or_intror I)) xs eq_refl). exact Eg.
  - revert E. induction acts as [|[c x] acts IH]; intros E; [apply IHe; auto|].
    destruct (evaluate W None c) as [y| | |] eqn:Ec; try discriminate. cbn [bind] in E.
    destruct (H c x (or_introl eq_refl)) as [Hc Hx]. rewrite (Hc y Ec d). cbn [bind].
    destruct (v_val y) as [[p b]|]; try discriminate. destruct (truthy p); auto.
    apply IH; auto. intros c' x' I. apply H. right; auto.
Qed.

Section SOUND.
Variable G : types.
Variable W : world.
Hypothesis wf : wf_types G.
Hypothesis ww : wt_world G W.

Scheme vt_mut := Minimality for vt Sort Prop
  with tf_mut := Minimality for tup_fields Sort Prop.

(** ** Stored values *)
Lemma eval_lit_typ l k : exists p, v_val (eval_lit l k) = Some (p, lit_typ k) /\ pt G W (lit_typ k) p.
Proof. destruct k as [z|q|s m|b|e n]; cbn; eexists; split; eauto; try constructor. destruct m; constructor. Qed.

Lemma eval_stored_typ a v : vt G W a v ->
  exists w p, eval_stored W v = Ok w /\ v_val w = Some (p, a) /\ pt G W a p.
Proof.
  revert a v. apply (vt_mut G W
    (fun a v => exists w p, eval_stored W v = Ok w /\ v_val w = Some (p, a) /\ pt G W a p)
    (fun cs vs => exists ws, (fix go (vs : list (text * vexpr)) : eres (list (text * value)) :=
                  match vs with
                  | [] => Ok []
                  | (k, a) :: vs' => do x <- eval_stored W a ; do xs <- go vs' ; Ok ((k, x) :: xs)
                  end) vs = Ok ws /\ pt_fields G W cs ws)).
  - intros l k refs. destruct (eval_lit_typ l k) as (p & E & P). exists (eval_lit l k), p. auto.
  - intros l a op l' k refs A O K. subst a.
    destruct A as [A|A], O as [-> | ->], k as [z|q|s [|]|b|e n]; try discriminate; cbn;
      do 2 eexists; (split; [reflexivity|split; [reflexivity|constructor]]).
  - intros l i lo hi el vs _ IH. cbn.
    assert (X : exists ws, (fix go (vs : list vexpr) : eres (list value) :=
                  match vs with
                  | [] => Ok []
                  | a :: vs' => do x <- eval_stored W a ; do xs <- go vs' ; Ok (x :: xs)
                  end) vs = Ok ws /\ forall v, In v ws -> exists p, v_val v = Some (p, el) /\ pt G W el p).
    { induction vs as [|v vs IHvs].
      - exists []. split; auto. intros v [].
      - destruct (IH v (or_introl eq_refl)) as (w & p & E & V & P).
        destruct IHvs as (ws & E' & F); [intros; apply IH; right; auto|].
        exists (w :: ws). rewrite E. cbn. rewrite E'. split; auto.
        intros x [<-|I]; eauto. }
    destruct X as (ws & E & F). rewrite E. cbn. do 2 eexists. split; [reflexivity|]. split; [reflexivity|].
    constructor; auto.
  - intros l u ut vs E _ (ws & Eg & F). cbn. rewrite Eg. cbn. do 2 eexists. split; [reflexivity|].
    split; [reflexivity|]. econstructor; eauto.
  - intros l r pkg name o ob E F. cbn. rewrite E. do 2 eexists. split; [reflexivity|]. split; [reflexivity|].
    econstructor; eauto.
  - intros l i ms pkg name o ob E F. cbn. rewrite E. do 2 eexists. split; [reflexivity|]. split; [reflexivity|].
    econstructor; eauto.
  - exists []. split; auto. constructor.
  - intros c cs v vs _ (w & p & E & V & P) _ (ws & Eg & F). exists ((c_name c, w) :: ws).
    rewrite E. cbn. rewrite Eg. split; auto. econstructor; eauto.
  - intros c cs l vs O _ (ws & Eg & F). exists ((c_name c, null_value l) :: ws). cbn. rewrite Eg. split; auto.
    apply pf_null; auto.
Qed.

Lemma eval_fits a opt v : fits G W a opt v ->
  exists w, eval_stored W v = Ok w /\ of_type G W (Some a) w /\ (v_val w = None -> opt = true).
Proof.
  intros [V|(O & l & ->)].
  - destruct (eval_stored_typ a v V) as (w & p & E & Vw & P). exists w. split; auto. unfold of_type. rewrite Vw.
    split; auto. discriminate.
  - exists (null_value l). repeat split; auto.
Qed.

(** ** Operators *)
Lemma pt_num a p : pt G W a p -> In a [TInt; TDec] ->
  (a = TInt /\ exists z, p = PInt z) \/ (a = TDec /\ exists q, p = PFrac q).
Proof. intros P [<-|[<-|[]]]; inversion P; subst; eauto. Qed.
Lemma pt_string a p : pt G W a p -> In a [TStr; TMarkup] -> exists s, p = PStr s.
Proof. intros P [<-|[<-|[]]]; inversion P; subst; eauto. Qed.
Lemma pt_boolean p : pt G W TBool p -> exists b, p = PBool b.
Proof. intros P; inversion P; subst; eauto. Qed.
Lemma pt_integer p : pt G W TInt p -> exists z, p = PInt z.
Proof. intros P; inversion P; subst; eauto. Qed.

Lemma pt_fields_assoc cs vs c : pt_fields G W cs vs -> In c cs ->
  exists v, assoc (c_name c) vs = Some v.
Proof.
  induction 1 as [|c' cs v p vs V P F IH|c' cs v vs O N F IH]; intros I; [contradiction| |];
    cbn; destruct (text_eqb (c_name c') (c_name c)) eqn:E; eauto;
    destruct I as [->|I]; auto; rewrite text_eqb_refl in E; discriminate.
Qed.
Lemma pt_fields_value cs vs k v : NoDup (map c_name cs) -> pt_fields G W cs vs -> assoc k vs = Some v ->
  exists c, In c cs /\ c_name c = k /\ of_type G W (Some (c_typ c)) v /\ (v_val v = None -> c_opt c = true).
Proof.
  intros N F; revert N; induction F as [|c' cs w p vs V P F IH|c' cs w vs O Nl F IH]; cbn; intros N E; [discriminate| |];
    inversion N as [|? ? N1 N2]; subst; destruct (text_eqb (c_name c') k) eqn:Ek.
  - injection E as <-. apply text_eqb_eq in Ek. exists c'. unfold of_type. rewrite V. split; auto. split; auto.
    split; auto. discriminate.
  - destruct (IH N2 E) as (c & ? & ? & ? & ?). exists c. auto.
  - injection E as <-. apply text_eqb_eq in Ek. exists c'. unfold of_type. rewrite Nl. auto.
  - destruct (IH N2 E) as (c & ? & ? & ? & ?). exists c. auto.
Qed.

(** Component names are distinct within a type (Symbol_Table.register). *)
Hypothesis names_rec : forall r, NoDup (map c_name (all_components G r)).
Hypothesis names_tup : forall u ut, nth_error (tups G) u = Some ut -> NoDup (map c_name (u_comps ut)).

Lemma names_unique (cs : list component) c c' :
  NoDup (map c_name cs) -> In c cs -> In c' cs -> c_name c = c_name c' -> c = c'.
Proof.
  induction cs as [|x cs IH]; cbn; intros N I I' E; [contradiction|]. inversion N as [|? ? N1 N2]; subst.
  destruct I as [->|I], I' as [->|I']; auto.
  - exfalso. apply N1. rewrite E. apply in_map; auto.
  - exfalso. apply N1. rewrite <- E. apply in_map; auto.
Qed.

(** ** Expressions *)

(** An expression that can have the value null. *)
Fixpoint maybe_null (e : expr) : bool :=
  match e with
  | ENull _ => true
  | EName _ _ _ _ opt => opt
  | EBinary _ _ (B_and | B_or | B_implies) _ b => maybe_null b
  | EField _ c _ union _ => if union then true else c_opt c
  | ECond _ acts els => existsb (fun '(_, x) => maybe_null x) acts || maybe_null els
  | _ => false
  end.

Definition good (e : expr) (r : eres value) : Prop :=
  match r with
  | Ok v => of_type G W (e_typ e) v /\ (v_val v = None -> maybe_null e = true)
  | Err _ => True
  | _ => False
  end.

Arguments good : simpl never.
Lemma good_value e l p a : e_typ e = Some a -> pt G W a p -> good e (Ok (Val l (Some (p, a)))).
Proof. intros E P. unfold good. split; [unfold of_type; cbn; auto|discriminate]. Qed.


Lemma py_bool_b b : py_bool (PBool b) = Ok b.
Proof. reflexivity. Qed.

Ltac run IH :=
  let v := fresh "v" in let p := fresh "p" in let b := fresh "b" in
  let Ty := fresh "Ty" in let Nu := fresh "Nu" in let V := fresh "V" in let P := fresh "P" in let Et := fresh "Et" in
  match type of IH with good _ ?r =>
    let Ev := fresh "Ev" in
    destruct r as [v| | |] eqn:Ev; unfold good in IH; cbn [bind]; [|exact I|contradiction|contradiction];
    destruct IH as [Ty Nu]; unfold of_type in Ty; destruct (v_val v) as [[p b]|] eqn:V; [destruct Ty as [Et P]|]
  end.

Lemma good_unary e l a op strict S : wt G W strict S (EUnary l a op e) ->
  forall d, good e (evaluate W d e) -> good (EUnary l a op e) (evaluate W d (EUnary l a op e)).
Proof.
  intros T d IH. cbn [evaluate]. run IH.
  2:{ unfold eval_unary. rewrite V. exact I. }
  unfold eval_unary. rewrite V.
  inversion T; subst; clear T; match goal with H : e_typ e = Some _ |- _ => rewrite H in Et; injection Et as <- end.
  - match goal with H : In _ [TInt; TDec] |- _ => destruct (pt_num _ _ P H) as [(-> & z & ->)|(-> & q & ->)] end;
      match goal with H : In op _ |- _ => destruct H as [<-|[<-|[<-|[]]]] end; cbn; apply good_value; auto; constructor.
  - destruct (pt_boolean _ P) as (x & ->). apply good_value; auto; constructor.
  - match goal with H : In _ [TStr; TMarkup] |- _ => destruct (pt_string _ _ P H) as (x & ->) end.
    apply good_value; auto; constructor.
  - inversion P; subst. apply good_value; auto; constructor.
  - match goal with H : In _ [TInt; TDec] |- _ => destruct (pt_num _ _ P H) as [(-> & z & ->)|(-> & q & ->)] end;
      match goal with H : In (op, _) _ |- _ => destruct H as [E|[E|[]]]; injection E as <- <- end; cbn;
      apply good_value; auto; constructor.
Qed.

Lemma Qeq_bool_inject z : Qeq_bool (inject_Z z) 0 = (z =? 0).
Proof. unfold Qeq_bool, inject_Z. cbn. unfold Zeq_bool. rewrite Z.mul_1_r. destruct z; reflexivity. Qed.

Lemma static_any e v : evaluate W None e = Ok v -> forall d, evaluate W d e = Ok v.
Proof. intros E [d|]; auto. eapply static_eval; eauto. Qed.

Lemma good_binary a b l o op strict S : wt G W strict S (EBinary l o op a b) ->
  forall d, good a (evaluate W d a) -> good b (evaluate W d b) ->
    good (EBinary l o op a b) (evaluate W d (EBinary l o op a b)).
Proof.
  intros T d IHa IHb. cbn [evaluate]. run IHa.
  2:{ destruct (is_eq op) eqn:Q; cbn [negb andb]; [|exact I].
      assert (op = B_eq \/ op = B_neq) as O by (destruct op; try discriminate; auto).
      assert (o = Some TBool) as ->
        by (inversion T; subst; auto; exfalso; destruct O; subst;
            repeat match goal with H : In _ _ |- _ => cbn in H; decompose [or] H; clear H end; try discriminate; contradiction).
      destruct O as [-> | ->]; run IHb; cbn; apply good_value; auto; constructor. }
  rewrite andb_false_r.
  assert (Lg : forall x, o = Some TBool -> e_typ a = Some TBool -> e_typ b = Some TBool ->
               In op [B_and; B_or; B_implies] -> p = PBool x ->
               good (EBinary l o op a b) (evaluate W d b) /\
               good (EBinary l o op a b) (Ok v)).
  { intros x -> Ea Eb O ->. split.
    - run IHb; unfold good, of_type; rewrite V0.
      + split; [rewrite <- Eb; auto|discriminate].
      + split; auto. intros _. destruct O as [<-|[<-|[<-|[]]]]; auto.
    - unfold good, of_type. rewrite V. split; [rewrite <- Ea; auto|discriminate]. }
  assert (Strict : ~ In op [B_and; B_or; B_implies] ->
     good (EBinary l o op a b)
       (do vr <- evaluate W d b;
        (if negb (is_eq op) && match v_val vr with Some _ => false | None => true end
         then Err (v_loc vr, P_null_rhs) else eval_binary W l o op v vr))).
  2:{ destruct op; try (apply Strict; cbn; intros [H|[H|[H|[]]]]; discriminate);
      inversion T; subst; clear T;
      try match goal with H : In _ _ |- _ => cbn in H; exfalso; decompose [or] H; solve [discriminate|contradiction] end;
      match goal with H : e_typ a = Some TBool |- _ => rewrite H in Et; injection Et as <- end;
      destruct (pt_boolean _ P) as (x & ->); cbn [py_bool bind];
      (destruct (Lg x) as [L1 L2]; [auto|auto|auto|cbn; auto|auto|]); destruct x; auto.
      apply good_value; auto. constructor. }
  intros NL. run IHb.
  2:{ destruct (is_eq op) eqn:Q; cbn [negb andb]; [|exact I].
      assert (op = B_eq \/ op = B_neq) as O by (destruct op; try discriminate; auto).
      assert (o = Some TBool) as ->
        by (inversion T; subst; auto; exfalso; destruct O; subst;
            repeat match goal with H : In _ _ |- _ => cbn in H; decompose [or] H; clear H end; try discriminate; contradiction).
      destruct O as [-> | ->]; cbn; apply good_value; auto; constructor. }
  rewrite andb_false_r. unfold eval_binary. rewrite V, V0.
  assert (Vs : forall q t, pt G W t q -> o = Some t -> good (EBinary l o op a b) (mk_value l q o)).
  { intros q t0 Pq ->. apply good_value; auto. }
  inversion T; subst; clear T;
    repeat match goal with
    | H : e_typ a = Some _ |- _ => rewrite H in Et; injection Et as <-
    | H : e_typ b = Some _ |- _ => rewrite H in Et0; injection Et0 as <-
    end.
  - (* logic *)
    destruct (pt_boolean _ P) as (x & ->). destruct (pt_boolean _ P0) as (y & ->).
    match goal with H : In op _ |- _ => destruct H as [<-|[<-|[<-|[<-|[]]]]] end;
      try (exfalso; apply NL; cbn; tauto).
    cbn. eapply Vs; auto. constructor.
  - match goal with H : In op _ |- _ => destruct H as [<-|[<-|[]]] end; eapply Vs; auto; constructor.
  - match goal with H : In _ [TInt; TDec] |- _ => 
      destruct (pt_num _ _ P H) as [(En & z & ->)|(En & q & ->)]; destruct (pt_num _ _ P0 H) as [(En' & z' & ->)|(En' & q' & ->)]
    end; subst; try discriminate;
    match goal with H : In op _ |- _ => destruct H as [<-|[<-|[<-|[<-|[]]]]] end; cbn; eapply Vs; auto; constructor.
  - match goal with H : In s _, H' : In s' _ |- _ => destruct (pt_string _ _ P H) as (x & ->); destruct (pt_string _ _ P0 H') as (y & ->) end.
    match goal with H : In op _ |- _ => destruct H as [<-|[<-|[<-|[]]]] end; cbn; eapply Vs; auto; constructor.
  - match goal with H : In s _, H' : In s' _ |- _ => destruct (pt_string _ _ P H) as (x & ->) end.
    match goal with H : evaluate W None b = _ |- _ => rewrite (static_any _ _ H d) in Ev0; injection Ev0 as <- end.
    cbn in V0. injection V0 as <- <-. cbn.
    match goal with H : forall x, w_match W _ x <> None |- _ => specialize (H x) end.
    destruct (w_match W _ x); [|congruence]. eapply Vs; auto; constructor.
  - inversion P0; subst. eapply Vs; auto; constructor.
  - match goal with H : In _ [TInt; TDec] |- _ => 
      destruct (pt_num _ _ P H) as [(En & z & ->)|(En & q & ->)]; destruct (pt_num _ _ P0 H) as [(En' & z' & ->)|(En' & q' & ->)]
    end; subst; try discriminate;
    match goal with H : In op _ |- _ => destruct H as [<-|[<-|[<-|[<-|[]]]]] end; cbn; try (eapply Vs; auto; constructor).
    + rewrite Qeq_bool_inject. destruct (z' =? 0) eqn:Z0; [exact I|].
      unfold int_divide. rewrite Z0. eapply Vs; auto; constructor.
    + destruct (Qeq_bool q' 0); [exact I|]. eapply Vs; auto; constructor.
  - match goal with H : In s _, H' : In s' _ |- _ => destruct (pt_string _ _ P H) as (x & ->); destruct (pt_string _ _ P0 H') as (y & ->) end.
    eapply Vs; auto; constructor.
  - destruct (pt_integer _ P) as (x & ->). destruct (pt_integer _ P0) as (y & ->). cbn.
    destruct (y =? 0) eqn:Z0; [exact I|]. unfold remainder. rewrite Z0. destruct (x >=? 0); eapply Vs; auto; constructor.
  - match goal with H : evaluate W None b = _ |- _ => rewrite (static_any _ _ H d) in Ev0; injection Ev0 as <- end.
    cbn in V0. injection V0 as <-. cbn.
    assert (k <? 0 = false) as K by lia.
    match goal with H : In _ [TInt; TDec] |- _ => destruct (pt_num _ _ P H) as [(-> & z & ->)|(-> & q & ->)] end;
      cbn; rewrite K; cbn; eapply Vs; auto; constructor.
  - destruct (pt_integer _ P0) as (y & ->). inversion P as [ | | | | | |? ? ? ? vs F| | | ]; subst. cbn.
    destruct (y <? 0); [exact I|]. destruct (match hi with Some h => h <? y | None => false end); [exact I|].
    destruct (Z.of_nat (List.length vs) <? y); [exact I|].
    destruct (nth_error vs (Z.to_nat y)) as [x|] eqn:N; [|exact I].
    destruct (F x (nth_error_In _ _ N)) as (q & -> & Q). eapply Vs; eauto.
Qed.

Lemma scope_extend S d n a v : scope_ok G W S d -> fits G W a false v ->
  scope_ok G W ((n, (a, false)) :: S) ((n, v) :: d).
Proof.
  intros K F m b opt E. cbn in *. destruct (text_eqb n m); [|apply K; auto].
  injection E as <- <-. eauto.
Qed.

(** The field of an object. *)
Lemma object_field o ob k : nth_error (w_objs W) o = Some ob ->
  match assoc k (o_fields ob) with
  | None => forall c, In c (all_components G (o_typ ob)) -> c_name c <> k
  | Some (_, x) => exists c, In c (all_components G (o_typ ob)) /\ c_name c = k /\ fits G W (c_typ c) (c_opt c) x
  end.
Proof.
  intros E. destruct (ww _ _ E) as (_ & C & K & _). destruct (assoc k (o_fields ob)) as [[id x]|] eqn:A.
  - destruct (K _ _ A) as (c & I & <-). destruct (C c I) as (id' & x' & A' & F). rewrite A' in A.
    injection A as -> ->. eauto.
  - intros c I <-. destruct (C c I) as (id' & x' & A' & F). congruence.
Qed.

Theorem soundness e : forall S d, wt G W true S e -> scope_ok G W S d -> good e (evaluate W (Some d) e).
Proof.
  induction e using expr_ind2; intros S d T K.
  - cbn. split; auto. exact I.
  - cbn. destruct (eval_lit_typ l k) as (p & E & P). unfold good, of_type. rewrite E. split; auto. discriminate.
  - inversion T; subst. cbn. match goal with H : assoc n S = _ |- _ => destruct (K _ _ _ H) as (v & A & F) end. rewrite A.
    destruct (eval_fits _ _ _ F) as (w & E & O & N). rewrite E. split; auto.
  - eapply good_unary; eauto. eapply IHe; eauto. inversion T; subst; auto.
  - eapply good_binary; eauto; [eapply IHe1|eapply IHe2]; eauto; inversion T; subst; auto.
  - assert (X : wt G W true S e) by (inversion T; subst; auto).
    specialize (IHe _ _ X K). cbn [evaluate]. run IHe; [|exact I].
    inversion T; subst; match goal with H : e_typ e = Some _ |- _ => rewrite H in Et; injection Et as <- end;
      inversion P; subst.
    + match goal with H : nth_error _ _ = Some ?x, H' : nth_error _ _ = Some ?y |- _ => rewrite H in H'; injection H' as <- end.
      match goal with H : pt_fields _ _ _ _ |- _ => destruct (pt_fields_assoc _ _ c H) as (w & A); auto end.
      unfold value in A |- *. rewrite A.
      match goal with Hn : nth_error (tups G) _ = Some ut, Hf : pt_fields _ _ _ _ |- _ =>
        destruct (pt_fields_value _ _ _ _ (names_tup _ _ Hn) Hf A) as (c' & Ic & N & O & U);
        assert (c' = c) as -> by (apply (names_unique (u_comps ut)); eauto) end.
      unfold good. split; auto.
    + match goal with H : nth_error (w_objs W) _ = Some ?o |- _ => pose proof (object_field _ _ (c_name c) H) as F; destruct (ww _ _ H) as (Lt & _) end.
      assert (Ic : In c (all_components G (o_typ ob))).
      { eapply components_inherited; eauto. destruct (lineage_exists G wf r) as (ls & Ls).
        { match goal with H : fits_record _ _ _ |- _ => apply (ancestor_le G wf) in H end. lia. }
        rewrite (all_components_spec G wf _ _ Ls). apply in_flat_map. exists r. split; auto.
        apply (lineage_in G _ _ Ls). apply rt_refl. }
      destruct (assoc (c_name c) (o_fields ob)) as [[id x]|]; [|destruct (F c Ic); auto].
      destruct F as (c' & I & N & F). assert (c' = c) as -> by (apply (names_unique (all_components G (o_typ ob))); auto).
      destruct (eval_fits _ _ _ F) as (w & E & O & U). rewrite E. split; auto.
    + match goal with H : nth_error (w_objs W) _ = Some ?o |- _ => pose proof (object_field _ _ (c_name (fi_comp info)) H) as F; destruct (ww _ _ H) as (Lt & _) end.
      destruct (assoc (c_name (fi_comp info)) (o_fields ob)) as [[id x]|]; [|split; [exact I|auto]].
      destruct F as (c' & Ic & N & F).
      destruct (eval_fits _ _ _ F) as (w & E & O & U). rewrite E. split; auto.
      match goal with H : true = true -> coherent _ _ _ _ |- _ => specialize (H eq_refl (o_typ ob) c' Lt ltac:(assumption) Ic N) end.
      cbn [e_typ]. congruence.
  - inversion T; subst. 
    assert (Ga := IHe1 _ _ ltac:(eassumption) K). assert (Gl := IHe2 _ _ ltac:(eassumption) K).
    assert (Gh := IHe3 _ _ ltac:(eassumption) K). cbn [evaluate].
    run Ga; [|exact I]. run Gl; [|exact I]. run Gh; [|exact I].
    repeat match goal with H : e_typ ?x = Some _, H' : e_typ ?x = Some _ |- _ => rewrite H in H'; injection H' as <- end.
    match goal with H : In _ [TInt; TDec] |- _ =>
      destruct (pt_num _ _ P H) as [(E1 & x1 & ->)|(E1 & x1 & ->)];
      destruct (pt_num _ _ P0 H) as [(E2 & x2 & ->)|(E2 & x2 & ->)];
      destruct (pt_num _ _ P1 H) as [(E3 & x3 & ->)|(E3 & x3 & ->)]
    end; subst; try discriminate; cbn;
    match goal with |- context [if ?x then _ else _] => destruct x end; apply good_value; auto; constructor.
  - inversion T; subst. cbn [evaluate].
    assert (X : match (fix go (es : list expr) : eres (list value) :=
                  match es with
                  | [] => Ok []
                  | a :: es' => do x <- evaluate W (Some d) a ; do xs <- go es' ; Ok (x :: xs)
                  end) es with Ok _ | Err _ => True | _ => False end).
    { clear T. induction es as [|e es IHes]; [exact I|].
      assert (Ge := H e (or_introl eq_refl) S d ltac:(auto with datatypes) K).
      run Ge; (match goal with |- match (bind ?g _) with _ => _ end => destruct g; cbn end; auto; apply IHes; intros; auto with datatypes; eapply H; eauto with datatypes). }
    match goal with |- good _ (bind ?g _) => destruct g; cbn [bind]; try contradiction; [|exact I] end.
    apply good_value; auto; constructor.
  - inversion T; subst. cbn [evaluate].
    assert (X : forall acts', (forall c x, In (c, x) acts' -> In (c, x) acts) ->
      good (ECond l acts e)
       ((fix go (acts : list (expr * expr)) : eres value :=
         match acts with
         | [] => evaluate W (Some d) e
         | (c, x) :: acts' =>
             do vc <- evaluate W (Some d) c ;
             match v_val vc with
             | None => Err (v_loc vc, P_null_condition)
             | Some (p, _) => if truthy p then evaluate W (Some d) x else go acts'
             end
         end) acts')).
    2:{ apply X; auto. }
    assert (Ta : e_typ (ECond l acts e) = Some a).
    { destruct acts as [|[c x] acts]; [congruence|]. cbn.
      match goal with H : forall c x, In (c, x) _ -> e_typ c = _ /\ _ |- _ => apply (H c x (or_introl eq_refl)) end. }
    induction acts' as [|[c x] acts' IHa]; intros Sub.
    + assert (Ge := IHe _ _ ltac:(eassumption) K). destruct (evaluate W (Some d) e); auto.
      destruct Ge as [O N]. unfold good. rewrite Ta. split; [congruence|]. intros V. cbn. rewrite (N V). apply orb_true_r.
    + assert (Ia := Sub c x (or_introl eq_refl)). destruct (H c x Ia) as [Hc Hx].
      assert (Wt : wt G W true S c /\ wt G W true S x) by eauto. destruct Wt as [Wc Wx].
      assert (Gc := Hc _ _ Wc K). assert (Gx := Hx _ _ Wx K). run Gc; [|exact I].
      destruct (truthy p); [|apply IHa; intros; apply Sub; right; auto].
      destruct (evaluate W (Some d) x); auto. destruct Gx as [O N]. unfold good. rewrite Ta. split.
      * assert (Ex : e_typ x = Some a) by (match goal with H : forall c x, In (c, x) _ -> e_typ c = _ /\ _ |- _ => apply (H c x Ia) end).
        congruence.
      * intros V'. cbn. apply orb_true_iff. left. apply existsb_exists. exists (c, x). auto.
  - inversion T; subst. cbn [evaluate].
    match goal with H : assoc (c_name src) S = _ |- _ => destruct (K _ _ _ H) as (w & A & F) end. rewrite A.
    match goal with H : c_typ src = _ |- _ => rewrite H in F end.
    destruct F as [F|(-> & ln & ->)]; [|exact I].
    inversion F as [? k| |l' ? ? ? ? vs Fv| | | ]; subst.
    { destruct k as [| |? []| | ]; discriminate. }
    { match goal with H : _ \/ _ |- _ => destruct H; discriminate end. }
    clear A F. induction vs as [|b vs IHv]; [apply good_value; auto; constructor|].
    assert (Gb := IHe _ ((v, b) :: d) ltac:(eassumption) ltac:(apply scope_extend; auto; left; auto with datatypes)).
    run Gb; [|exact I]. assert (b0 = TBool) as -> by congruence.
    destruct (pt_boolean _ P) as (x & ->).
    destruct un, x; cbn [andb negb]; try (apply good_value; auto; constructor); apply IHv; auto with datatypes.
Qed.

(** ** Python exceptions *)
Inductive sub : expr -> expr -> Prop :=
| sub_refl e : sub e e
| sub_unary x l a op e : sub x e -> sub x (EUnary l a op e)
| sub_left x l a op e f : sub x e -> sub x (EBinary l a op e f)
| sub_right x l a op e f : sub x f -> sub x (EBinary l a op e f)
| sub_field x l c p un uv : sub x p -> sub x (EField l c p un uv)
| sub_range1 x l a lo hi : sub x a -> sub x (ERange l a lo hi)
| sub_range2 x l a lo hi : sub x lo -> sub x (ERange l a lo hi)
| sub_range3 x l a lo hi : sub x hi -> sub x (ERange l a lo hi)
| sub_oneof x l es e : In e es -> sub x e -> sub x (EOneof l es)
| sub_cond x l acts els c e : In (c, e) acts -> sub x c \/ sub x e -> sub x (ECond l acts els)
| sub_else x l acts els : sub x els -> sub x (ECond l acts els)
| sub_quant x l un v ls src body : sub x body -> sub x (EQuant l un v ls src body).

(** The expressions that can make the tool crash. *)
Definition risky (e : expr) (p : problem) : Prop :=
  (p = P_index_error /\ exists l a x y, sub (EBinary l a B_index x y) e) \/
  (p = P_assert_bool /\ exists l un v ls src body, sub (EQuant l un v ls src body) e /\ maybe_null body = true).

Lemma risky_sub e f p : risky e p -> (forall x, sub x e -> sub x f) -> risky f p.
Proof. intros [(-> & l & a & x & y & H)|(-> & l & un & v & ls & src & b & H & N)] F; [left|right]; repeat eexists; eauto. Qed.

Lemma internal_unary l a op v x p : eval_unary l a op v = Err (x, p) -> internal p = false.
Proof.
  unfold eval_unary. destruct (v_val v) as [[q b]|]; [|intros E; injection E as <- <-; auto].
  destruct op, q, a; cbn; intros E; discriminate.
Qed.
Lemma internal_binary l o op a b x p : eval_binary W l o op a b = Err (x, p) -> internal p = true ->
  op = B_index /\ p = P_index_error.
Proof.
  unfold eval_binary, mk_value. intros E N.
  destruct op; auto;
  repeat first [discriminate E | injection E as <- <-; discriminate N | injection E as <- <-; auto; fail |
    match type of E with
    | context [match ?x with _ => _ end] => destruct x; cbn [bind] in E
    | context [bind ?x _] => unfold py_bool, py_str, py_int, compare, arith, py_power in E
    end].
Qed.

Ltac fin := (* an error that is not internal *)
  solve [match goal with E : _ = Err (_, ?p), N : internal ?p = true |- _ => injection E as <- <-; discriminate N end].
Ltac stp E H v :=
  match type of E with
  | bind (evaluate W (Some ?d) ?e) _ = _ =>
      let Ee := fresh "Ee" in
      destruct (evaluate W (Some d) e) as [v|[? ?]| |] eqn:Ee; cbn [bind] in E; try discriminate E;
      [|injection E as -> ->; eapply risky_sub; [eapply H; eauto|]; intros; econstructor; eauto; fail]
  end.

Theorem internal_errors e : forall S d, wt G W true S e -> scope_ok G W S d ->
  forall x p, evaluate W (Some d) e = Err (x, p) -> internal p = true -> risky e p.
Proof.
  induction e using expr_ind2; intros S d T K x p E N; cbn [evaluate] in E; try discriminate.
  - exfalso. inversion T; subst. match goal with H : assoc n S = _ |- _ => destruct (K _ _ _ H) as (v & A & F) end. rewrite A in E.
    destruct (eval_fits _ _ _ F) as (w & E' & _). congruence.
  - assert (X : wt G W true S e) by (inversion T; subst; auto).
    stp E IHe v. apply internal_unary in E. congruence.
  - assert (X : wt G W true S e1) by (inversion T; subst; auto).
    assert (Y : wt G W true S e2) by (inversion T; subst; auto).
    stp E IHe1 v. destruct (negb (is_eq op) && _); [fin|].
    assert (St : (do vr <- evaluate W (Some d) e2;
            (if negb (is_eq op) && match v_val vr with Some _ => false | None => true end
             then Err (v_loc vr, P_null_rhs) else eval_binary W l a op v vr)) = Err (x, p) ->
            risky (EBinary l a op e1 e2) p).
    { clear E. intros E. destruct (evaluate W (Some d) e2) as [w|[y q]| |] eqn:Ew; cbn [bind] in E; try discriminate.
      - destruct (negb (is_eq op) && _); [fin|]. apply internal_binary in E as [-> ->]; auto.
        left. split; auto. do 4 eexists. apply sub_refl.
      - injection E as -> ->. eapply risky_sub; [eapply IHe2; eauto|]. intros; apply sub_right; auto. }
    assert (Rt : evaluate W (Some d) e2 = Err (x, p) -> risky (EBinary l a op e1 e2) p).
    { intros Eb. eapply risky_sub; [eapply IHe2; eauto|]. intros; apply sub_right; auto. }
    destruct op; try (apply St; exact E); destruct (v_val v) as [[q b]|]; try discriminate;
      destruct q; try discriminate; cbn [py_bool bind] in E; 
      match type of E with (if ?b then _ else _) = _ => destruct b end; auto; try discriminate.
    destruct a; discriminate.
  - assert (X : wt G W true S e) by (inversion T; subst; auto).
    assert (Ge := soundness _ _ _ X K). 
    stp E IHe v. destruct Ge as [Ty Nu]. unfold of_type in Ty.
    destruct (v_val v) as [[q b]|] eqn:V; [|fin].
    destruct Ty as [Et P]. destruct q; try discriminate; try (destruct (assoc (c_name c) vs); discriminate).
    destruct (assoc (c_name c) fs) as [[id y]|] eqn:A; [|discriminate]. exfalso.
    assert (Q : exists o ob, nth_error (w_objs W) o = Some ob /\ o_fields ob = fs) by (inversion P; subst; eauto).
    destruct Q as (o & ob & No & <-). pose proof (object_field _ _ (c_name c) No) as F. rewrite A in F.
    destruct F as (c' & _ & _ & F). destruct (eval_fits _ _ _ F) as (w & E' & _). congruence.
  - inversion T; subst. stp E IHe1 v. destruct (v_val v) as [[q b]|]; [|fin].
    stp E IHe2 v0. destruct (v_val v0) as [[q' b']|]; [|fin].
    stp E IHe3 v1. destruct (v_val v1) as [[q'' b'']|]; [|fin].
    unfold compare in E. destruct (as_num q'), (as_num q); try discriminate. cbn in E.
    destruct (num_le n0 n1); [|discriminate]. destruct (as_num q''); discriminate.
  - inversion T; subst.
    match type of E with (bind ?g _) = _ => destruct g as [?|[y q]| |] eqn:Eg; cbn [bind] in E; try discriminate end.
    injection E as -> ->.
    enough (X : exists e, In e es /\ evaluate W (Some d) e = Err (x, p)).
    { destruct X as (e & I & Ee). eapply risky_sub; [eapply (H e I); eauto|]. intros; eapply sub_oneof; eauto. }
    clear - Eg. revert Eg. induction es as [|e es IH]; intros Eg; [discriminate|].
    destruct (evaluate W (Some d) e) as [?|[y q]| |] eqn:Ee; cbn [bind] in Eg; try discriminate.
    + match type of Eg with (bind ?g _) = _ => destruct g as [?|[y q]| |]; cbn [bind] in Eg; try discriminate end.
      destruct IH as (e' & I & Ee'); auto. exists e'; auto with datatypes.
    + injection Eg as -> ->. exists e; auto with datatypes.
  - inversion T; subst.
    enough (X : evaluate W (Some d) e = Err (x, p) \/ exists c y, In (c, y) acts /\
              (evaluate W (Some d) c = Err (x, p) \/ evaluate W (Some d) y = Err (x, p))).
    { destruct X as [X|(c & y & Ia & X)].
      - eapply risky_sub; [eapply IHe; eauto|]. intros; apply sub_else; auto.
      - destruct (H _ _ Ia) as [Hc Hy]. assert (Wt : wt G W true S c /\ wt G W true S y) by eauto. destruct Wt.
        destruct X as [X|X]; (eapply risky_sub; [first [eapply Hc; eauto; fail|eapply Hy; eauto]|]); intros; eapply sub_cond; eauto. }
    clear - E N. induction acts as [|[c y] acts IH]; auto.
    destruct (evaluate W (Some d) c) as [v|[z q]| |] eqn:Ec; cbn [bind] in E; try discriminate.
    + destruct (v_val v) as [[q b]|]; [|fin]. destruct (truthy q).
      * right. exists c, y; auto with datatypes.
      * destruct (IH E) as [X|(c' & y' & Ia & X)]; auto. right. exists c', y'; auto with datatypes.
    + injection E as -> ->. right. exists c, y; auto with datatypes.
  - inversion T; subst.
    match goal with H : assoc (c_name src) S = _ |- _ => destruct (K _ _ _ H) as (w & A & F) end. rewrite A in E.
    match goal with H : c_typ src = _ |- _ => rewrite H in F end.
    destruct F as [F|(-> & ln & ->)]; [|fin].
    inversion F as [? k| |l' ? ? ? ? vs Fv| | | ]; subst.
    { destruct k as [| |? []| | ]; discriminate. }
    { match goal with H : _ \/ _ |- _ => destruct H; discriminate end. }
    clear A F. induction vs as [|b vs IHv]; [discriminate|].
    assert (Sb : scope_ok G W ((v, (el, false)) :: S) ((v, b) :: d)) by (apply scope_extend; auto; left; auto with datatypes).
    assert (Gb := soundness _ _ _ ltac:(eassumption) Sb).
    destruct (evaluate W (Some ((v, b) :: d)) e) as [r|[y q]| |] eqn:Er; cbn [bind] in E; try discriminate.
    2:{ injection E as -> ->. eapply risky_sub; [eapply IHe; eauto|]. intros; apply sub_quant; auto. }
    destruct Gb as [Ty Nu]. unfold of_type in Ty. destruct (v_val r) as [[q b']|] eqn:V.
    + destruct Ty as [Et P]. assert (b' = TBool) as -> by congruence. destruct (pt_boolean _ P) as (z & ->).
      destruct (un && negb z); [discriminate|]. destruct (negb un && z); [discriminate|].
      apply IHv; auto with datatypes.
    + injection E as <- <-. right. split; auto. repeat eexists; [apply sub_refl|auto].
Qed.
End SOUND.
