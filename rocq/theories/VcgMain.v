(** The goals of a type and the values of its objects. *)
From Coq Require Import Relations Qcanon.
From Verif Require Import Base Lexer MathModel MathProofs Ast Eval TypesProofs Typing Soundness EvalSpec EvalSpecProofs EvalCorrect SemEval Vcg VcgSem VcgEnc VcgOps VcgEq VcgFun VcgTmp VcgSound VcgChecks VcgModel.
From Verif Require ExprMeaningProofs.
From Coq Require Import ZifyBool ZifyNat.
Open Scope Z_scope.

Definition scope_for (cs : list component) : scope := map (fun c => (c_name c, (c_typ c, c_opt c))) cs.
Lemma assoc_scope_for k cs a o : assoc k (scope_for cs) = Some (a, o) -> exists c, In c cs /\ c_name c = k /\ c_typ c = a /\ c_opt c = o.
Proof.
  induction cs as [|c cs IH]; cbn; [discriminate|]. destruct (text_eqb (c_name c) k) eqn:E.
  - intros H. injection H as <- <-. apply text_eqb_eq in E. exists c. auto.
  - intros H. destruct (IH H) as (c' & I & R). exists c'. auto.
Qed.

(** ** Values of tuple types *)

(** Nothing follows a component that is null. *)
Definition trailing_nulls (vs : list (text * vexpr)) : Prop :=
  forall pre k v post, vs = pre ++ (k, v) :: post -> sval_of v = None -> forall k' v', In (k', v') post -> sval_of v' = None.
(** Only optional components follow an optional one. *)
Definition optional_last (cs : list component) : Prop :=
  forall pre c post, cs = pre ++ c :: post -> c_opt c = true -> forall c', In c' post -> c_opt c' = true.
(** The errors and fatal errors of the type do not apply to the value. *)
Definition tuple_checks_hold (G : types) (W : world) (u : nat) (vs : list (text * vexpr)) : Prop :=
  forall ut ck, tup G u = Some ut -> In ck (u_checks ut) -> ck_sev ck <> Sev_warning -> ssem W vs (ck_expr ck) (Some (SBool true)).
Definition legal_tuple (G : types) (W : world) (u : nat) (vs : list (text * vexpr)) : Prop :=
  trailing_nulls vs /\ tuple_checks_hold G W u vs.

(** What is needed of types. *)
Record fit_types (G : types) (W : world) : Prop := {
  ft_order : wf_types G;
  ft_rec : forall r, NoDup (map c_name (all_components G r));
  ft_tup : forall u ut, nth_error (tups G) u = Some ut -> NoDup (map c_name (u_comps ut));
  ft_rec_okt : forall r c, In c (all_components G r) -> okt G (c_typ c);
  ft_tup_okt : forall u ut c, tup G u = Some ut -> In c (u_comps ut) -> okt G (c_typ c);
  ft_last : forall u ut, tup G u = Some ut -> optional_last (u_comps ut);
  ft_checks : forall u ut ck, tup G u = Some ut -> In ck (u_checks ut) -> good_check G W (scope_for (u_comps ut)) ck
}.
Record fit_world (G : types) (W : world) : Prop := {
  fw_types : fit_types G W;
  fw_objects : wt_world G W;
  fw_apart : distinct_objects W;
  fw_legal : legal_world G W
}.

(** What is needed of the value of a component. *)
Definition bounded (lo : Z) (hi : option Z) (n : Z) : Prop := lo <= n /\ forall h, hi = Some h -> n <= h.
Record fit_value (G : types) (W : world) (frozen : option vexpr) (c : component) (v : vexpr) : Prop := {
  fv_fits : fits G W (c_typ c) (c_opt c) v;
  fv_legal : forall s, sval_of v = Some s -> st G W true (c_typ c) s;
  fv_frozen : forall x, frozen = Some x -> v = x /\ vt G W (c_typ c) x;
  fv_tuple : forall u l vs, c_typ c = TTup u -> v = XTup l u vs -> legal_tuple G W u vs;
  (* types without any value are excluded, also if the component is null *)
  fv_null_tuple : forall u, c_typ c = TTup u -> sval_of v = None ->
    exists l vs, vt G W (TTup u) (XTup l u vs) /\ (forall s, sval_of (XTup l u vs) = Some s -> st G W true (TTup u) s) /\ legal_tuple G W u vs;
  fv_null_array : forall i lo hi el, c_typ c = TArr i lo hi el -> sval_of v = None ->
    exists n, bounded lo hi (Z.of_nat n)
}.

Section TYPE.
Variable G : types.
Variable W : world.
Hypothesis FW : fit_world G W.
Lemma FT : fit_types G W. Proof. apply FW. Qed.
Variable junk : ty -> sv.
Hypothesis junk_ok : forall a, usable G a -> of_sort G true a (junk a).
Lemma usable_tup u ut c : tup G u = Some ut -> In c (u_comps ut) -> usable G (c_typ c).
Proof. intros. apply okt_usable. eapply (ft_tup_okt _ _ FT); eauto. Qed.
Lemma usable_rec r c : In c (all_components G r) -> usable G (c_typ c).
Proof. intros. apply okt_usable. eapply (ft_rec_okt _ _ FT); eauto. Qed.
Lemma faithful_of vals oks : faithful G W junk (model_of G W junk vals oks).
Proof.
  apply model_faithful; auto; try apply FW; try apply FT.
  - exact usable_tup.
  - exact usable_rec.
Qed.
Lemma enc_sorted x a s : st G W x a s -> of_sort G x a (enc G junk a s).
Proof. apply enc_sort; auto. exact usable_tup. Qed.

Section DECLS.
Variable vals : text -> sv.
Variable oks : text -> bool.
Notation M := (model_of G W junk vals oks).
Notation den := (sden M).
Lemma F : faithful G W junk M. Proof. apply faithful_of. Qed.

(** *** Tuples *)
Lemma tuple_of u l vs : vt G W (TTup u) (XTup l u vs) -> exists ut, tup G u = Some ut /\ tup_fields G W (u_comps ut) vs.
Proof. intros V. inversion V; subst. eauto. Qed.
Lemma tup_fits cs vs : NoDup (map c_name cs) -> tup_fields G W cs vs -> forall c, In c cs -> exists v, assoc (c_name c) vs = Some v /\ fits G W (c_typ c) (c_opt c) v.
Proof.
  intros N T. induction T as [|c cs v vs V T IH|c cs l vs O T IH]; intros x I; [contradiction|..]; cbn in N; inversion N as [|? ? N1 N2]; subst; cbn.
  - destruct I as [<-|I]; [rewrite text_eqb_refl; exists v; split; [auto|left; auto]|].
    destruct (text_eqb (c_name c) (c_name x)) eqn:E; [|apply IH; auto]. apply text_eqb_eq in E. exfalso. apply N1. rewrite E. apply in_map. auto.
  - destruct I as [<-|I]; [rewrite text_eqb_refl; exists (XNull l); split; [auto|right; split; [auto|eauto]]|].
    destruct (text_eqb (c_name c) (c_name x)) eqn:E; [|apply IH; auto]. apply text_eqb_eq in E. exfalso. apply N1. rewrite E. apply in_map. auto.
Qed.
Definition svals (vs : list (text * vexpr)) : list (text * option sval) := map (fun '(k, v) => (k, sval_of v)) vs.
Lemma assoc_svals k vs : assoc k (svals vs) = option_map sval_of (assoc k vs).
Proof. induction vs as [|[k' v] vs IH]; cbn; auto. destruct (text_eqb k' k); auto. Qed.
Lemma tuple_reps u ut vs : tup G u = Some ut -> st G W false (TTup u) (STup (svals vs)) ->
  Forall2 (fun c f => fst f = c_name c /\ field_rep G W junk c (enc_fields G junk (u_comps ut) (svals vs)) (snd f)) (u_comps ut) (svals vs).
Proof.
  intros Eu St. inversion St as [| | | | | |? ut1 xs Eu3 X1| | |]; subst. assert (ut1 = ut) by congruence. subst.
  eapply fields_rep; [|exact X1|auto]. eapply ft_tup; [exact FT|exact Eu].
Qed.
Lemma rep_assoc cs fs xs c : NoDup (map c_name cs) -> Forall2 (fun c f => fst f = c_name c /\ field_rep G W junk c fs (snd f)) cs xs -> In c cs ->
  exists o, assoc (c_name c) xs = Some o /\ field_rep G W junk c fs o.
Proof.
  intros Nd R. induction R as [|c0 [k o] cs xs [Ek Rf] R IH]; intros I; [contradiction|].
  cbn in *. inversion Nd as [|? ? N1 N2]; subst. destruct I as [<-|I]; [rewrite text_eqb_refl; eauto|].
  destruct (IH N2 I) as (o' & A & R'). exists o'. split; auto. destruct (text_eqb (c_name c0) (c_name c)) eqn:Q; auto. apply text_eqb_eq in Q. exfalso. apply N1. rewrite Q. apply in_map. auto.
Qed.
Lemma tuple_scope u l vs ut x tm : vt G W (TTup u) (XTup l u vs) -> tup G u = Some ut -> st G W false (TTup u) (STup (svals vs)) ->
  den tm x (enc G junk (TTup u) (STup (svals vs))) ->
  Erep G W junk M (scope_for (u_comps ut)) (tuple_env x (u_comps ut)) vs tm /\ Etot G M (scope_for (u_comps ut)) (tuple_env x (u_comps ut)) tm.
Proof.
  intros V Eu St D. destruct (tuple_of _ _ _ V) as (ut' & Eu' & Tf). assert (ut' = ut) by congruence. subst ut'.
  pose proof (ft_tup _ _ FT _ _ Eu) as Nd. rewrite (enc_tup G junk u ut _ Eu) in D. pose proof (tuple_reps _ _ _ Eu St) as R.
  assert (So : of_sort G false (TTup u) (VRec (enc_fields G junk (u_comps ut) (svals vs)))) by (rewrite <- (enc_tup G junk u ut _ Eu); apply enc_sorted; auto).
  assert (Ae : forall c, In c (u_comps ut) -> assoc (c_name c) (tuple_env x (u_comps ut)) = Some (T_value x (c_name c), if c_opt c then T_valid x (c_name c) else T_true)).
  { intros c I. unfold tuple_env. apply (assoc_comp (fun c => (T_value x (c_name c), if c_opt c then T_valid x (c_name c) else T_true))); auto. }
  split; intros n a o A; apply assoc_scope_for in A as (c & I & <- & <- & <-).
  - destruct (tup_fits _ _ Nd Tf c I) as (v & Av & Fv). exists (T_value x (c_name c)), (if c_opt c then T_valid x (c_name c) else T_true), v. split; auto. split; auto. split; auto.
    destruct (rep_assoc _ _ _ c Nd R I) as (o & Ao & Rp). rewrite assoc_svals, Av in Ao. cbn in Ao. injection Ao as <-. destruct Rp as (w & k & A' & Vy & K & N).
    destruct (sval_of v) as [y|]; cbn.
    + destruct (Vy y eq_refl) as [Ty ->]. split.
      * destruct (c_opt c); [|reflexivity]. subst k. cbn. eauto 8.
      * exists (c_typ c), (T_value x (c_name c)). split; auto. split; auto. split; auto. cbn. eauto 8.
    + rewrite (N eq_refl) in *. subst k. cbn. eauto 8.
  - inversion So as [| | | | | |? ut1 fs Eu1 F1| | |]; subst. assert (ut1 = ut) by congruence. subst ut1.
    destruct (fields_sorted G _ _ _ Nd F1 (sort_id G) c I) as (w & k & Aw & Ow & K). rewrite (Ae c I).
    destruct (c_opt c) eqn:Oc.
    + destruct k as [k|]; [|exfalso; apply K; auto]. eexists _, _, w, k. split; [reflexivity|]. split; [cbn; eauto 8|]. split; auto. cbn. eauto 8.
    + eexists _, _, w, true. split; [reflexivity|]. split; [cbn; eauto 8|]. split; auto. reflexivity.
Qed.
Lemma nulls_ok tm x cs xs : Forall2 (fun c o => c_opt c = true -> den tm (T_valid x (c_name c)) (VBool (is_some o))) cs xs -> optional_last cs ->
  (forall pre (o : option sval) post, xs = pre ++ o :: post -> o = None -> forall o', In o' post -> o' = None) ->
  forall a, In a (null_constraints x cs) -> den tm a (VBool true).
Proof.
  intros Fo. induction Fo as [|c o cs xs D Fo IH]; intros Ol Tr a I; [contradiction|].
  assert (Ol' : optional_last cs) by (intros pre c0 post E; apply (Ol (c :: pre) c0 post); cbn; congruence).
  assert (Tr' : forall pre (o : option sval) post, xs = pre ++ o :: post -> o = None -> forall o', In o' post -> o' = None) by (intros pre o0 post E; apply (Tr (o :: pre) o0 post); cbn; congruence).
  specialize (IH Ol' Tr'). cbn [null_constraints] in I. destruct (c_opt c) eqn:Oc; [|auto]. destruct cs as [|c1 cs1]; [contradiction|].
  destruct I as [<-|I]; [|auto]. specialize (D eq_refl).
  assert (Da : den tm (T_all (map (fun c => T_not (T_valid x (c_name c))) (c1 :: cs1))) (VBool (forallb (fun b => b) (map (fun o => negb (is_some o)) xs)))).
  { apply den_all. clear - Fo Ol Oc. assert (All : forall c', In c' (c1 :: cs1) -> c_opt c' = true) by (apply (Ol [] c (c1 :: cs1) eq_refl Oc)).
    clear Ol. revert All. induction Fo as [|c0 o0 cs0 xs0 D0 F0 IH0]; intros All; cbn [map]; constructor.
    - cbn [sden]. exists (is_some o0). split; [apply D0; apply All; left; auto|reflexivity].
    - apply IH0. intros; apply All; right; auto. }
  cbn [sden]. exists (negb (is_some o)), (forallb (fun b => b) (map (fun o => negb (is_some o)) xs)). split; [exists (is_some o); auto|]. split; [exact Da|]. f_equal.
  destruct o; auto. cbn. symmetry. apply forallb_forall. intros b Ib. apply in_map_iff in Ib as (o & <- & Io). rewrite (Tr [] None xs eq_refl eq_refl o Io). auto.
Qed.
Lemma tuple_decl u l vs x tm ts : vt G W (TTup u) (XTup l u vs) -> st G W false (TTup u) (STup (svals vs)) -> legal_tuple G W u vs ->
  den tm x (enc G junk (TTup u) (STup (svals vs))) -> tuple_constraints G W u x = Ok ts -> forall a, In a ts -> den tm a (VBool true).
Proof.
  intros V St [Tr Ck] D E a I. unfold tuple_constraints in E. destruct (tup G u) as [ut|] eqn:Eu; [|discriminate].
  destruct (check_constraints G W (tuple_env x (u_comps ut)) (u_checks ut)) as [xs| | |] eqn:Ex; try discriminate. injection E as <-. apply in_app_iff in I as [I|I].
  - destruct (tuple_scope u l vs ut x tm V Eu St D) as [Er Et].
    assert (Cs : forall ck, In ck (u_checks ut) -> ck_sev ck <> Sev_warning -> good_check G W (scope_for (u_comps ut)) ck /\ ssem W vs (ck_expr ck) (Some (SBool true))).
    { intros ck Ic Sv. split; [eapply ft_checks; eauto; exact FT|]. eapply Ck; eauto. }
    revert xs Ex I Cs. induction (u_checks ut) as [|ck cks IH]; intros xs Ex I Cs; cbn [check_constraints] in Ex; [injection Ex as <-; contradiction|].
    assert (Y : ck_sev ck = Sev_warning \/ ck_sev ck <> Sev_warning) by (destruct (ck_sev ck); auto; right; discriminate). destruct Y as [Y|Y].
    + rewrite Y in Ex. eapply IH; eauto. intros; apply Cs; auto. right. auto.
    + assert (Ex' : (do (x0, _) <- tr_functional G W (tuple_env x (u_comps ut)) (ck_expr ck) ; do x1 <- some_value x0 ; do xs0 <- check_constraints G W (tuple_env x (u_comps ut)) cks ; Ok (x1 :: xs0)) = Ok xs)
        by (destruct (ck_sev ck); [congruence|exact Ex|exact Ex]). clear Ex.
      destruct (tr_functional G W (tuple_env x (u_comps ut)) (ck_expr ck)) as [[y k]| | |] eqn:Ef; try discriminate. cbn in Ex'.
      destruct y as [y|]; try discriminate. cbn in Ex'. destruct (check_constraints G W (tuple_env x (u_comps ut)) cks) as [ys| | |] eqn:Ey; try discriminate. injection Ex' as <-.
      destruct I as [<-|I]; [|eapply IH; eauto; intros; apply Cs; auto; right; auto].
      destruct (Cs ck (or_introl eq_refl) Y) as ((Tc & Te & Pc) & Sc). destruct (faithful_fun _ _ _ _ F _ _ _ tm _ Tc Pc Et Ef) as [_ Rp]. specialize (Rp _ _ Er Sc). rewrite Te in Rp.
      destruct Rp as (_ & b & t' & Eb & Et' & _ & Dt). injection Eb as <-. injection Et' as <-. exact Dt.
  - pose proof (tuple_reps _ _ _ Eu St) as R. rewrite (enc_tup G junk u ut _ Eu) in D.
    eapply (nulls_ok tm x (u_comps ut) (map snd (svals vs))); [|eapply ft_last; [exact FT|exact Eu]| |exact I].
    + clear - R D. revert D R. generalize (enc_fields G junk (u_comps ut) (svals vs)). intros fs D R. induction R as [|c [k o] cs xs [Ek Rf] R IH]; cbn [map]; constructor; auto.
      intros Oc. destruct Rf as (w & b & A & _ & K & _). rewrite Oc in K. subst b. cbn. exists fs, w, (is_some o). auto.
    + clear - Tr. intros pre o post E -> o' Io. unfold svals in E. rewrite map_map in E. apply map_eq_app in E as (pre' & post' & -> & <- & E). apply map_eq_cons in E as ([k v] & post2 & -> & E1 & <-).
      apply in_map_iff in Io as ([k' v'] & <- & Io). cbn in *. eapply Tr; eauto.
Qed.

(** *** Frozen values *)
Lemma stored_ok x a tm y s : vt G W a x -> tr_stored x = Ok y -> sval_of x = Some s -> den tm y (enc G junk a s).
Proof.
  intros V E Es. destruct V as [l k refs|l a op l' k refs Ha Hop Hk|l i lo hi el vs Hv|l u ut vs Eu Tf|l r pkg name o ob Eo Fr|l i ms pkg name o ob Eo Fr]; cbn in E; try discriminate.
  - injection E as <-. cbn in Es. injection Es as <-. destruct k as [| |? []| |]; reflexivity.
  - subst a. destruct Hop as [->| ->]; cbn [unary_term x_typ] in E.
    + destruct k as [z|q|? []| |]; try (destruct Ha; discriminate); cbn in E, Es; injection E as <-; injection Es as <-; cbn.
      * exists z. auto.
      * exists (Q2Qc q). split; auto. apply f_equal. apply Q2Qc_eq_iff. cbn. rewrite Qred_correct. reflexivity.
    + injection E as <-. cbn in Es. destruct k as [z|q|? []| |]; try (destruct Ha; discriminate); injection Es as <-; reflexivity.
Qed.
End DECLS.

Lemma component_value c v fr : fit_value G W fr c v -> okt G (c_typ c) ->
  exists w, of_sort G true (c_typ c) w /\ (forall s, sval_of v = Some s -> w = enc G junk (c_typ c) s) /\
    forall vals oks tm ts, vals (c_name c) = w -> oks (c_name c) = is_some (sval_of v) -> component_decl G W fr c = Ok ts ->
      forall a, In a ts -> sden (model_of G W junk vals oks) tm a (VBool true).
Proof.
  intros V Okc. destruct (sval_of v) as [s|] eqn:Es.
  - pose proof (fv_legal _ _ _ _ _ V _ Es) as St. exists (enc G junk (c_typ c) s). split; [apply enc_sorted; auto|]. split; [intros s' [= <-]; auto|].
    assert (Vt : vt G W (c_typ c) v) by (destruct (fv_fits _ _ _ _ _ V) as [X|(_ & l & ->)]; [auto|discriminate]).
    intros vals oks tm ts Ev Eo E a I. unfold component_decl in E.
    assert (D : sden (model_of G W junk vals oks) tm (T_val (c_name c)) (enc G junk (c_typ c) s)) by (cbn; auto).
    destruct (match fr with Some v => do y <- tr_stored v ; Ok [T_cmp C_eq (T_val (c_name c)) y] | None => Ok [] end) as [xs| | |] eqn:Ex; cbn [bind] in E; try discriminate.
    destruct (match c_typ c with TTup u => _ | TArr _ lo hi _ => _ | _ => _ end) as [ys| | |] eqn:Ey; cbn [bind] in E; try discriminate. injection E as <-.
    apply in_app_iff in I as [I|I]; [|apply in_app_iff in I as [I|I]].
    + destruct fr as [x|]; [|injection Ex as <-; contradiction]. destruct (fv_frozen _ _ _ _ _ V x eq_refl) as [-> _].
      destruct (tr_stored x) as [y| | |] eqn:Et; cbn in Ex; try discriminate. injection Ex as <-. destruct I as [<-|[]].
      cbn [sden]. exists (enc G junk (c_typ c) s), (enc G junk (c_typ c) s), true. repeat split; auto. eapply stored_ok; eauto.
    + destruct (c_typ c) as [| | | | |e|u|r|i ms|i lo hi el] eqn:Ec; try (injection Ey as <-; contradiction).
      * assert (X : exists l vs, v = XTup l u vs) by (clear - Vt; inversion Vt as [? k ? Ek|? ? ? ? k ? Ek| | | |]; subst; eauto; [destruct k as [| |? []| |]; discriminate|destruct Ek; discriminate]). destruct X as (l & vs & ->). injection Es as <-.
        eapply (tuple_decl vals oks u l vs); eauto; [apply st_weaken; exact St|]. eapply fv_tuple; eauto.
      * injection Ey as <-. inversion St as [| | | | | | | | |? ? ? ? xs0 Fx Hlo Hhi]; subst. cbn [enc] in D.
        assert (Dl : sden (model_of G W junk vals oks) tm (T_seqlen (T_val (c_name c))) (VInt (Z.of_nat (List.length xs0)))) by (cbn [sden]; eexists; split; [exact D|rewrite map_length; auto]).
        apply in_app_iff in I as [I|I].
        -- destruct (0 <? lo); [|contradiction]. destruct I as [<-|[]]. exists (VInt (Z.of_nat (List.length xs0))), (VInt lo). do 3 eexists. split; [exact Dl|]. split; [reflexivity|]. split; [reflexivity|]. split; [reflexivity|]. split; [reflexivity|]. split; auto.
           intros _. cbn. unfold Qle. cbn. lia.
        -- destruct hi as [h|]; [|contradiction]. destruct I as [<-|[]]. exists (VInt (Z.of_nat (List.length xs0))), (VInt h). do 3 eexists. split; [exact Dl|]. split; [reflexivity|]. split; [reflexivity|]. split; [reflexivity|]. split; [reflexivity|]. split; auto.
           intros _. specialize (Hhi h eq_refl). cbn. unfold Qle. cbn. lia.
    + destruct (c_opt c && _); [contradiction|]. destruct I as [<-|[]]. cbn [sden]. exists (VBool true), (VBool true), true. repeat split; auto. cbn. rewrite Eo. auto.
  - assert (X : c_opt c = true /\ exists l, v = XNull l) by (destruct (fv_fits _ _ _ _ _ V) as [X|X]; [|auto]; destruct (vt_stores _ _ _ _ X) as (s & E & _); congruence).
    destruct X as (Oc & l & ->).
    assert (Fr : fr = None) by (destruct fr as [x|]; auto; destruct (fv_frozen _ _ _ _ _ V x eq_refl) as [<- X]; inversion X). subst fr.
    assert (Y : exists w, of_sort G true (c_typ c) w /\ forall vals oks tm ys, vals (c_name c) = w ->
      match c_typ c with TTup u => tuple_constraints G W u (T_val (c_name c))
            | TArr _ lo hi _ =>
                Ok ((if 0 <? lo then [T_cmp C_geq (T_seqlen (T_val (c_name c))) (T_int lo)] else []) ++
                    match hi with Some h => [T_cmp C_leq (T_seqlen (T_val (c_name c))) (T_int h)] | None => [] end)
            | _ => Ok []
            end = Ok ys -> forall a, In a ys -> sden (model_of G W junk vals oks) tm a (VBool true)).
    { destruct (c_typ c) as [| | | | |e|u|r|i ms|i lo hi el] eqn:Ec;
        try (exists (junk (c_typ c)); rewrite Ec; split; [apply junk_ok; apply okt_usable; exact Okc|intros vals oks tm ys _ [= <-] a []]).
      - destruct (fv_null_tuple _ _ _ _ _ V u Ec Es) as (l0 & vs & Vt & St & Lg). specialize (St _ eq_refl). exists (enc G junk (TTup u) (STup (svals vs))). split; [apply enc_sorted; exact St|].
        intros vals oks tm ys Ev E a I. eapply (tuple_decl vals oks u l0 vs); eauto; [apply st_weaken; exact St|]. cbn. auto.
      - destruct (fv_null_array _ _ _ _ _ V _ _ _ _ Ec Es) as (n & Hlo & Hhi). exists (VSeq (repeat (junk el) n)). split.
        + constructor. apply Forall_forall. intros w Iw. apply repeat_spec in Iw. subst. apply junk_ok. apply okt_usable. apply Okc.
        + intros vals oks tm ys Ev [= <-] a I.
          assert (Dl : sden (model_of G W junk vals oks) tm (T_seqlen (T_val (c_name c))) (VInt (Z.of_nat n))) by (cbn; eexists; split; [symmetry; exact Ev|rewrite repeat_length; auto]).
          apply in_app_iff in I as [I|I].
          * destruct (0 <? lo); [|contradiction]. destruct I as [<-|[]]. exists (VInt (Z.of_nat n)), (VInt lo). do 3 eexists. split; [exact Dl|]. split; [reflexivity|]. split; [reflexivity|]. split; [reflexivity|]. split; [reflexivity|]. split; auto.
            intros _. cbn. unfold Qle. cbn. lia.
          * destruct hi as [h|]; [|contradiction]. destruct I as [<-|[]]. exists (VInt (Z.of_nat n)), (VInt h). do 3 eexists. split; [exact Dl|]. split; [reflexivity|]. split; [reflexivity|]. split; [reflexivity|]. split; [reflexivity|]. split; auto.
            intros _. specialize (Hhi h eq_refl). cbn. unfold Qle. cbn. lia. }
    destruct Y as (w & So & Y). exists w. split; auto. split; [discriminate|]. intros vals oks tm ts Ev _ E a I. unfold component_decl in E. cbn [bind] in E.
    destruct (match c_typ c with TTup u => _ | TArr _ lo hi _ => _ | _ => _ end) as [ys| | |] eqn:Ey; cbn [bind] in E; try discriminate. injection E as <-. rewrite Oc in I. cbn in I. rewrite app_nil_r in I. eauto.
Qed.

Lemma choose {A} (P : component -> A -> Prop) (a0 : A) cs : NoDup (map c_name cs) -> (forall c, In c cs -> exists w, P c w) -> exists f : text -> A, forall c, In c cs -> P c (f (c_name c)).
Proof.
  induction cs as [|c cs IH]; intros N H; [exists (fun _ => a0); contradiction|]. cbn in N. inversion N as [|? ? N1 N2]; subst.
  destruct IH as [f Hf]; auto; [intros; apply H; right; auto|]. destruct (H c (or_introl eq_refl)) as [w Hw].
  exists (fun n => if text_eqb (c_name c) n then w else f n). intros c' [<-|I]; [rewrite text_eqb_refl; auto|].
  destruct (text_eqb (c_name c) (c_name c')) eqn:E; auto. apply text_eqb_eq in E. exfalso. apply N1. rewrite E. apply in_map. auto.
Qed.
Lemma decls_ok frozen cs (P : term -> Prop) : (forall c ts, In c cs -> component_decl G W (frozen (c_name c)) c = Ok ts -> forall a, In a ts -> P a) ->
  forall ts, component_decls G W frozen cs = Ok ts -> forall a, In a ts -> P a.
Proof.
  induction cs as [|c cs IH]; intros H ts E a I; cbn [component_decls] in E; [injection E as <-; contradiction|].
  destruct (component_decl G W (frozen (c_name c)) c) as [xs| | |] eqn:Ex; cbn [bind] in E; try discriminate.
  destruct (component_decls G W frozen cs) as [ys| | |] eqn:Ey; cbn [bind] in E; try discriminate. injection E as <-. apply in_app_iff in I as [I|I].
  - eapply H; eauto. left. auto.
  - eapply IH; eauto. intros; eapply H; eauto. right. auto.
Qed.
Lemma tuple_env_below x cs : below 0 x -> env_below 0 (tuple_env x cs).
Proof.
  intros B n y k A. unfold tuple_env in A. induction cs as [|c cs IH]; cbn in A; [discriminate|]. destruct (text_eqb (c_name c) n); auto.
  injection A as <- <-. split; [exact B|]. destruct (c_opt c); [exact B|exact I].
Qed.
Lemma component_decl_below fr c ts : component_decl G W fr c = Ok ts -> forall a, In a ts -> below 0 a.
Proof.
  unfold component_decl. intros E a Ia.
  destruct (match fr with Some v => do y <- tr_stored v ; Ok [T_cmp C_eq (T_val (c_name c)) y] | None => Ok [] end) as [xs| | |] eqn:Ex; cbn [bind] in E; try discriminate.
  destruct (match c_typ c with TTup u => _ | TArr _ lo hi _ => _ | _ => _ end) as [ys| | |] eqn:Ey; cbn [bind] in E; try discriminate. injection E as <-.
  apply in_app_iff in Ia as [Ia|Ia]; [|apply in_app_iff in Ia as [Ia|Ia]].
  - destruct fr as [x|]; [|injection Ex as <-; contradiction]. destruct (tr_stored x) as [y| | |] eqn:Et; cbn in Ex; try discriminate. injection Ex as <-. destruct Ia as [<-|[]].
    cbn. split; auto. clear - Et. revert y Et. induction x; intros y Et; cbn in Et; try discriminate; [injection Et as <-; exact I|]. destruct (tr_stored x) as [z| | |]; cbn in Et; try discriminate.
    specialize (IHx _ eq_refl). destruct op; cbn in Et; try (injection Et as <-; exact IHx); destruct (x_typ x) as [[]|]; try discriminate; injection Et as <-; exact IHx.
  - destruct (c_typ c) as [| | | | |e|u|r|i ms|i lo hi el]; try (injection Ey as <-; contradiction).
    + unfold tuple_constraints in Ey. destruct (tup G u) as [ut|]; try discriminate. destruct (check_constraints G W (tuple_env (T_val (c_name c)) (u_comps ut)) (u_checks ut)) as [zs| | |] eqn:Ez; try discriminate. injection Ey as <-.
      apply in_app_iff in Ia as [Ia|Ia].
      * assert (B : env_below 0 (tuple_env (T_val (c_name c)) (u_comps ut))) by (apply tuple_env_below; exact I). revert zs Ez Ia.
        induction (u_checks ut) as [|ck cks IH]; intros zs Ez Ia; cbn [check_constraints] in Ez; [injection Ez as <-; contradiction|].
        destruct (ck_sev ck); [eauto|..].
        all: destruct (tr_functional G W (tuple_env (T_val (c_name c)) (u_comps ut)) (ck_expr ck)) as [[y k]| | |] eqn:Ef; try discriminate; cbn in Ez; destruct y as [y|]; try discriminate; cbn in Ez;
          destruct (check_constraints G W (tuple_env (T_val (c_name c)) (u_comps ut)) cks) as [ws| | |]; try discriminate; injection Ez as <-; destruct Ia as [<-|Ia]; [|eauto];
          destruct (fun_below _ _ _ _ _ _ Ef B) as [Bx _]; apply Bx; auto.
      * clear - Ia. induction (u_comps ut) as [|c0 cs IH]; cbn [null_constraints] in Ia; [contradiction|]. destruct (c_opt c0); [|auto]. destruct cs as [|c1 cs1]; [contradiction|]. destruct Ia as [<-|Ia]; [|auto].
        cbn [below]. split; [exact I|]. clear. generalize (c1 :: cs1). intros cs. assert (X : forall ts, (forall a, In a ts -> below 0 a) -> below 0 (T_all ts)).
        { intros ts. induction ts as [|x ts IH]; intros H; [exact I|]. cbn. destruct ts; [apply H; left; auto|]. split; [apply H; left; auto|]. apply IH. intros; apply H; right; auto. }
        apply X. intros a Ia. apply in_map_iff in Ia as (c2 & <- & _). exact I.
    + injection Ey as <-. apply in_app_iff in Ia as [Ia|Ia]; [destruct (0 <? lo)|destruct hi]; try contradiction; destruct Ia as [<-|[]]; cbn; auto.
  - destruct (c_opt c && _); [contradiction|]. destruct Ia as [<-|[]]. cbn. auto.
Qed.

(** *** All goals *)
Theorem goals_sound frozen cs cks d vcs pre own ck post :
  NoDup (map c_name cs) -> (forall c, In c cs -> okt G (c_typ c)) ->
  (forall c, In c cs -> exists v, assoc (c_name c) d = Some v /\ fit_value G W (frozen (c_name c)) c v) ->
  goals_of G W frozen cs cks = Ok vcs -> (forall v, In v vcs -> expect_unsat (vc_feedback v) = true -> vc_valid G cs v) ->
  in_phases cks = pre ++ (own, ck) :: post ->
  (forall o c, In (o, c) (pre ++ [(own, ck)]) -> good_check G W (scope_for cs) c) ->
  (forall c, In (false, c) (pre ++ [(own, ck)]) -> exists q, ssem W d (ck_expr c) (Some q)) ->
  (forall o c, In (o, c) pre -> ck_sev c = Sev_fatal -> sem W d (ck_expr c) (Some (SBool true))) ->
  exists b, ssem W d (ck_expr ck) (Some (SBool b)) /\
    (own = true -> exists p x n, In (VC p x (Feedback n (e_loc (ck_expr ck)) K_always_true)) vcs /\
                                (vc_valid G cs (VC p x (Feedback n (e_loc (ck_expr ck)) K_always_true)) -> b = true)).
Proof.
  intros Nd Okc Fv Eg Vv Ep Gc In0 Ft. unfold goals_of in Eg.
  destruct (component_decls G W frozen cs) as [decls| | |] eqn:Ed; cbn [bind] in Eg; try discriminate.
  destruct (tr_checks G W (component_env cs) (in_phases cks) (Vst 0 0 [map D_assert (rev decls)] [])) as [[u s1]| | |] eqn:Et; try discriminate. injection Eg as <-.
  destruct (choose (fun c w => exists v, assoc (c_name c) d = Some v /\ fit_value G W (frozen (c_name c)) c v /\ of_sort G true (c_typ c) w /\ (forall s, sval_of v = Some s -> w = enc G junk (c_typ c) s) /\
    forall vals oks tm ts, vals (c_name c) = w -> oks (c_name c) = is_some (sval_of v) -> component_decl G W (frozen (c_name c)) c = Ok ts ->
      forall a, In a ts -> sden (model_of G W junk vals oks) tm a (VBool true)) (VBool true) cs Nd) as [vals Hv].
  { intros c I. destruct (Fv c I) as (v & A & V). destruct (component_value c v _ V (Okc c I)) as (w & X). exists w, v. auto. }
  set (oks := fun n => match assoc n d with Some v => is_some (sval_of v) | None => false end). set (M := model_of G W junk vals oks).
  pose proof (faithful_of vals oks) as F0. fold M in F0. set (tm := fun _ : nat => VBool true).
  assert (Ws : well_sorted G cs M). { apply model_sorted; auto; try apply FW; try apply FT; [exact usable_tup|exact usable_rec|]. intros c I. destruct (Hv c I) as (v & _ & _ & So & _). exact So. }
  assert (Dt : forall a, In a decls -> sden M tm a (VBool true)).
  { apply (decls_ok frozen cs (fun a => sden M tm a (VBool true))); auto. intros c ts I E. destruct (Hv c I) as (v & A & _ & _ & _ & D). apply (D vals oks tm ts); auto. unfold oks. rewrite A. auto. }
  assert (Db : forall a, In a decls -> below 0 a).
  { apply (decls_ok frozen cs (below 0)); auto. intros c ts _ E. eapply component_decl_below; eauto. }
  assert (Ae : forall c, In c cs -> assoc (c_name c) (component_env cs) = Some (T_val (c_name c), T_ok (c_name c))) by (intros c I; unfold component_env; apply (assoc_comp (fun c => (T_val (c_name c), T_ok (c_name c)))); auto).
  assert (Oe : ok_env G W junk M (scope_for cs) (component_env cs) d tm 0).
  { split; [|split].
    - intros n a o A. apply assoc_scope_for in A as (c & I & <- & <- & <-). destruct (Hv c I) as (v & A & V & So & Es & _). exists (T_val (c_name c)), (T_ok (c_name c)), v. split; auto. split; auto. split; [eapply fv_fits; eauto|].
      assert (Ko : sden M tm (T_ok (c_name c)) (VBool (is_some (sval_of v)))) by (cbn; unfold oks; rewrite A; auto).
      destruct (sval_of v) as [s|] eqn:Esv; [|exact Ko]. split; auto. exists (c_typ c), (T_val (c_name c)). split; auto. split; auto. split; [apply st_weaken; eapply fv_legal; eauto|]. cbn. symmetry. auto.
    - intros n a o A. apply assoc_scope_for in A as (c & I & <- & <- & <-). destruct (Hv c I) as (v & A & V & So & Es & _). exists (T_val (c_name c)), (T_ok (c_name c)), (vals (c_name c)), (oks (c_name c)).
      split; auto. split; [reflexivity|]. split; [apply sort_weaken; auto|reflexivity].
    - intros n x y A. unfold component_env in A. clear - A. induction cs as [|c cs IH]; cbn in A; [discriminate|]. destruct (text_eqb (c_name c) n); auto. injection A as <- <-. split; exact I. }
  rewrite Ep in Et. assert (Gk : goals_ok M s1) by (intros v Iv Ev tm' Hp; exact (Vv v Iv Ev M tm' Ws Hp)).
  assert (OS : okS G (scope_for cs)) by (intros n a o A; apply assoc_scope_for in A as (c & I & _ & <- & _); auto).
  destruct (checks_ok G W junk M F0 (scope_for cs) (component_env cs) d OS pre own ck post _ u s1 tm Et) as (b & Sb & K); auto.
  - unfold inv, paths_below. cbn. constructor; [|constructor]. unfold path_below. apply Forall_forall. intros x Ix. apply in_map_iff in Ix as (a & <- & Ia). apply in_rev in Ia. cbn. auto.
  - exists (map D_assert (rev decls)). split; [left; auto|]. apply Forall_forall. intros x Ix. apply in_map_iff in Ix as (a & <- & Ia). apply in_rev in Ia. cbn. auto.
  - exists b. split; auto. intros O. destruct (K O) as (p & x & n & tm' & Hp & Hx & Iv). exists p, x, n. split; auto. intros Vc. destruct b; auto. exfalso. exact (Vc M tm' Ws Hp Hx).
Qed.
End TYPE.

(** ** Record types *)
Definition phases (cks : list check) : list check :=
  filter (fun c => negb (uses_field_access (ck_expr c))) cks ++ filter (fun c => uses_field_access (ck_expr c)) cks.
Lemma filter_map {A B} (f : A -> B) p l : filter p (map f l) = map f (filter (fun x => p (f x)) l).
Proof. induction l as [|x l IH]; cbn; auto. destruct (p (f x)); cbn; congruence. Qed.
Lemma filter_comm {A} (p q : A -> bool) l : filter p (filter q l) = filter q (filter p l).
Proof. induction l as [|x l IH]; cbn; auto. destruct (q x) eqn:Q, (p x) eqn:P; cbn; rewrite ?Q, ?P; congruence. Qed.
Lemma phases_app a b x : In x (phases (a ++ b)) <-> In x (phases a) \/ In x (phases b).
Proof. unfold phases. rewrite !filter_app, !in_app_iff. tauto. Qed.
Lemma phases_in a x : In x (phases a) <-> In x a.
Proof. unfold phases. rewrite in_app_iff, !filter_In. destruct (uses_field_access (ck_expr x)); cbn; intuition congruence. Qed.
Lemma in_phases_snd a b : map snd (in_phases (map (pair false) a ++ map (pair true) b)) = phases (a ++ b).
Proof.
  unfold in_phases, phases. rewrite !filter_app, !filter_map, !map_app, !map_map. cbn. rewrite !map_id. reflexivity.
Qed.
Lemma in_phases_inherited a b : filter (fun c => negb (fst c)) (in_phases (map (pair false) a ++ map (pair true) b)) = map (pair false) (phases a).
Proof.
  unfold in_phases, phases. rewrite !filter_app, !filter_map. cbn.
  assert (T : forall l : list check, filter (fun _ => true) l = l) by (induction l; cbn; congruence).
  assert (N : forall l : list check, filter (fun _ => false) l = []) by (induction l; cbn; auto).
  rewrite !T, !N. cbn. rewrite !app_nil_r, map_app. reflexivity.
Qed.

Lemma snoc_cases {A} (l : list A) : l = [] \/ exists l' x, l = l' ++ [x].
Proof. destruct l as [|a l] using rev_ind; [left; auto|right; eauto]. Qed.

Section RECORD.
Variable G : types.
Variable W : world.
Hypothesis FW : fit_world G W.

(** The values are what the type and the types it extends ask for. *)
Definition legal_record (d : list (text * vexpr)) (r : nat) : Prop :=
  forall q, clos_refl_trans nat (extends G) r q -> forall c, In c (all_components G q) ->
    exists v, assoc (c_name c) d = Some v /\ fit_value G W (option_map snd (get_freezing G q (c_name c))) c v.
(** The goals of the type and of the types it extends are valid. *)
Definition verified (q : nat) (vcs : list vc) : Prop :=
  record_goals G W q = Ok vcs /\ forall v, In v vcs -> expect_unsat (vc_feedback v) = true -> vc_valid G (all_components G q) v.
Definition good_checks (q : nat) : Prop := forall ck, In ck (own_checks G q) -> good_check G W (scope_for (all_components G q)) ck.

Lemma iter_step r : (r < List.length (recs G))%nat -> iter_checks G r = inherited_checks G r ++ own_checks G r.
Proof.
  pose proof (ft_order _ _ (fw_types _ _ FW)) as wf.
  intros L. destruct (lineage_exists G wf r L) as (l & Li). rewrite (iter_checks_spec G wf _ _ Li). destruct Li as [r rt E P|r p l X Li].
  - cbn. rewrite app_nil_r. unfold inherited_checks, rec. rewrite E, P. reflexivity.
  - rewrite flat_map_app. cbn. rewrite app_nil_r. f_equal. destruct X as (rt & E & P). unfold inherited_checks, rec. rewrite E, P. symmetry. apply iter_checks_spec; auto.
Qed.
Lemma assoc_scope_in cs c : NoDup (map c_name cs) -> In c cs -> assoc (c_name c) (scope_for cs) = Some (c_typ c, c_opt c).
Proof. intros N I. unfold scope_for. apply (assoc_comp (fun c => (c_typ c, c_opt c))); auto. Qed.
Lemma good_inherited r q ck : (r < List.length (recs G))%nat -> clos_refl_trans nat (extends G) r q ->
  good_check G W (scope_for (all_components G q)) ck -> good_check G W (scope_for (all_components G r)) ck.
Proof.
  pose proof (fw_types _ _ FW) as FT. intros L X (T & E & P). split; [|auto]. eapply ExprMeaningProofs.wt_scope; [|exact T]. intros n [a o] A. apply assoc_scope_for in A as (c & I & <- & <- & <-).
  apply assoc_scope_in; [apply FT|]. eapply components_inherited; eauto. apply FT.
Qed.
Lemma good_all r : (r < List.length (recs G))%nat -> (forall q, clos_refl_trans nat (extends G) r q -> good_checks q) ->
  forall ck, In ck (iter_checks G r) -> good_check G W (scope_for (all_components G r)) ck.
Proof.
  pose proof (ft_order _ _ (fw_types _ _ FW)) as wf. intros L Gq ck I. destruct (lineage_exists G wf r L) as (l & Li). rewrite (iter_checks_spec G wf _ _ Li) in I.
  apply in_flat_map in I as (q & Iq & I). apply (lineage_in G _ _ Li) in Iq. eapply good_inherited; eauto. apply Gq; auto.
Qed.

(** Every check of an object whose type and ancestors were verified gives true
    or false, if the fatal checks before it, in the order used for
    verification, hold. *)
Theorem record_sound d r : (r < List.length (recs G))%nat -> legal_record d r ->
  (forall q, clos_refl_trans nat (extends G) r q -> good_checks q /\ exists vcs, verified q vcs) ->
  forall pre ck post, phases (iter_checks G r) = pre ++ ck :: post ->
  (forall c, In c pre -> ck_sev c = Sev_fatal -> sem W d (ck_expr c) (Some (SBool true))) ->
  exists b, ssem W d (ck_expr ck) (Some (SBool b)) /\
    forall vcs, verified r vcs -> In ck (own_checks G r) -> ~ In ck (inherited_checks G r) ->
      exists p x n, In (VC p x (Feedback n (e_loc (ck_expr ck)) K_always_true)) vcs /\
                    (vc_valid G (all_components G r) (VC p x (Feedback n (e_loc (ck_expr ck)) K_always_true)) -> b = true).
Proof.
  pose proof (fw_types _ _ FW) as FT. pose proof (ft_order _ _ FT) as wf.
  destruct (junk_exists G) as [junk junk_ok]. { intros u ut c Eu I. apply okt_usable. eapply (ft_tup_okt _ _ FT); eauto. }
  induction r as [r IH] using lt_wf_ind. intros L Lr Vq pre ck post Ep Fp.
  assert (Main : forall vcs, verified r vcs -> exists b, ssem W d (ck_expr ck) (Some (SBool b)) /\
    (In ck (own_checks G r) -> ~ In ck (inherited_checks G r) ->
      exists p x n, In (VC p x (Feedback n (e_loc (ck_expr ck)) K_always_true)) vcs /\
                    (vc_valid G (all_components G r) (VC p x (Feedback n (e_loc (ck_expr ck)) K_always_true)) -> b = true))).
  { intros vcs [Eg Vv]. rewrite iter_step in Ep by auto. rewrite <- in_phases_snd in Ep.
    apply map_eq_app in Ep as (pre' & post' & E & <- & Ep). apply map_eq_cons in Ep as ([own ck'] & post2 & -> & Ek & <-). cbn in Ek. subst ck'.
    fold (record_checks G r) in E.
    assert (Own : forall o c, In (o, c) (record_checks G r) -> if o then In c (own_checks G r) else In c (inherited_checks G r)).
    { intros o c I. unfold record_checks in I. apply in_app_iff in I as [I|I]; apply in_map_iff in I as (x & Ex & I); injection Ex as <- <-; auto. }
    assert (Ph : forall o c, In (o, c) (pre' ++ (own, ck) :: post2) -> In (o, c) (record_checks G r)).
    { intros o c I. rewrite <- E in I. unfold in_phases in I. rewrite in_app_iff, !filter_In in I. tauto. }
    assert (Sub : forall x, In x (pre' ++ [(own, ck)]) -> In x (pre' ++ (own, ck) :: post2)) by (intros x; rewrite !in_app_iff; cbn; tauto).
    assert (Gd : forall o c, In (o, c) (pre' ++ [(own, ck)]) -> good_check G W (scope_for (all_components G r)) c).
    { intros o c I. apply (good_all r L); [intros q Xq; apply Vq; auto|]. rewrite iter_step by auto. apply Sub, Ph, Own in I. apply in_app_iff. destruct o; auto. }
    destruct (goals_sound G W FW junk junk_ok _ _ _ d vcs pre' own ck post2 (ft_rec _ _ FT r) (ft_rec_okt _ _ FT r) (Lr r (rt_refl _ _ _)) Eg Vv E Gd) as (b & Sb & K).
    - intros c I. apply in_split in I as (a & b & Es). assert (Ic : In c (inherited_checks G r)) by (apply (Own false), Ph, Sub; rewrite Es; apply in_elt).
      assert (Xp : exists p, extends G r p /\ inherited_checks G r = iter_checks G p).
      { unfold inherited_checks, rec in *. destruct (nth_error (recs G) r) as [rt|] eqn:Er; [|contradiction]. destruct (r_parent rt) as [p|] eqn:Ep; [|contradiction]. exists p. split; auto. exists rt. auto. }
      destruct Xp as (p & Xp & Ei). pose proof (wf _ _ Xp) as Lp.
      assert (Fi : filter (fun c => negb (fst c)) (in_phases (record_checks G r)) = map (pair false) (phases (iter_checks G p))) by (unfold record_checks; rewrite in_phases_inherited, Ei; auto).
      rewrite E in Fi. change (pre' ++ (own, ck) :: post2) with (pre' ++ [(own, ck)] ++ post2) in Fi. rewrite app_assoc, Es, <- app_assoc in Fi. rewrite filter_app in Fi. cbn [app filter fst negb] in Fi.
      symmetry in Fi. apply map_eq_app in Fi as (a' & b' & Ea & Ea' & Eb). apply map_eq_cons in Eb as (c' & b2 & -> & Ec & Eb2). injection Ec as ->.
      destruct (IH p Lp ltac:(lia)) with (pre := a') (ck := c) (post := b2) as (x & Sx & _); auto.
      + intros q Xq. apply Lr. eapply rt_trans; [apply rt_step; exact Xp|exact Xq].
      + intros q Xq. apply Vq. eapply rt_trans; [apply rt_step; exact Xp|exact Xq].
      + intros c0 I0 F0. apply Fp; auto. assert (I1 : In (false, c0) (filter (fun c => negb (fst c)) a)) by (rewrite <- Ea'; apply in_map; auto).
        apply filter_In in I1 as [I1 _]. assert (I2 : In (false, c0) pre').
        { destruct (snoc_cases b) as [->|(b0 & z & ->)].
          - apply app_inj_tail in Es as [-> _]. auto.
          - rewrite app_comm_cons, app_assoc in Es. apply app_inj_tail in Es as [-> _]. apply in_app_iff. auto. }
        apply in_map_iff. exists (false, c0). auto.
      + eauto.
    - intros o c I Fc. apply Fp; auto. apply in_map_iff. exists (o, c). auto.
    - exists b. split; auto. intros Io Ni. apply K. destruct own; auto. exfalso. apply Ni. apply (Own false), Ph. apply in_elt. }
  destruct (Vq r (rt_refl _ _ _)) as [_ [vcs V]]. destruct (Main vcs V) as (b & Sb & K). exists b. split; auto. intros vcs' V'. destruct V as [E ?], V' as [E' ?]. assert (vcs' = vcs) by congruence. subst. auto.
Qed.
End RECORD.
