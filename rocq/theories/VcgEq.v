(** Equality and field access in Vcg.v. *)
From Coq Require Import Relations Qcanon Qabs.
From Verif Require Import Base Lexer MathModel MathProofs Ast Eval TypesProofs Typing Soundness EvalSpec EvalSpecProofs EvalCorrect SemEval Vcg VcgSem VcgEnc VcgOps.
Open Scope Z_scope.

Section EQ.
Variable G : types.
Variable W : world.
Variable junk : ty -> sv.
Variable M : model.
Hypothesis junk_ok : forall a, usable G a -> of_sort G true a (junk a).
Hypothesis tup_usable : forall u ut c, tup G u = Some ut -> In c (u_comps ut) -> usable G (c_typ c).
Hypothesis names_tup : forall u ut, nth_error (tups G) u = Some ut -> NoDup (map c_name (u_comps ut)).

Notation st := (st G W false).
Notation enc := (enc G junk).
Notation enc_fields := (enc_fields G junk).
Notation den := (sden M).
Notation srt := (of_sort G false).

(** What the record [fs] says about a component. *)
Definition field_rep (c : component) (fs : list (text * (sv * option bool))) (o : option sval) : Prop :=
  exists w k, assoc (c_name c) fs = Some (w, k) /\ (forall y, o = Some y -> st (c_typ c) y /\ w = enc (c_typ c) y) /\
    k = (if c_opt c then Some (is_some o) else None) /\ (o = None -> c_opt c = true).
Definition field_sorted (c : component) (fs : list (text * (sv * option bool))) : Prop :=
  exists w k, assoc (c_name c) fs = Some (w, k) /\ srt (c_typ c) w /\ (c_opt c = true <-> k <> None).

Lemma fields_rep x cs xs : NoDup (map c_name cs) ->
  Forall2 (fun c f => fst f = c_name c /\ (forall y, snd f = Some y -> VcgEnc.st G W x (c_typ c) y) /\ (snd f = None -> c_opt c = true)) cs xs ->
  (forall c y, In c cs -> VcgEnc.st G W x (c_typ c) y -> st (c_typ c) y) ->
  Forall2 (fun c f => fst f = c_name c /\ field_rep c (enc_fields cs xs) (snd f)) cs xs.
Proof.
  intros N F Wk. induction F as [|c [k o] cs xs (K & Sf & Nf) F IH]; constructor; inversion N as [|? ? N1 N2]; subst.
  - cbn in *. split; auto. unfold field_rep. cbn. rewrite text_eqb_refl. do 2 eexists. split; [reflexivity|]. split; [|split; auto].
    intros y ->. split; auto.
  - specialize (IH N2 ltac:(auto with datatypes)).
    assert (Y : forall c' f, In c' cs -> field_rep c' (enc_fields cs xs) f -> field_rep c' (enc_fields (c :: cs) ((k, o) :: xs)) f).
    { intros c' f I (w & b & A & R). exists w, b. split; [|exact R]. cbn. destruct (text_eqb (c_name c) (c_name c')) eqn:Q; [|exact A].
      apply text_eqb_eq in Q. exfalso. apply N1. rewrite Q. apply in_map. auto. }
    clear - IH Y. revert Y IH. generalize (enc_fields cs xs), (enc_fields (c :: cs) ((k, o) :: xs)). intros l1 l2 Y H.
    induction H as [|c1 f1 cs1 xs1 [A B] F1 IH1]; constructor; [split; auto with datatypes|]. apply IH1. intros; apply Y; auto with datatypes.
Qed.
Lemma fields_sorted x cs fs : NoDup (map c_name cs) ->
  Forall2 (fun c f => fst f = c_name c /\ of_sort G x (c_typ c) (fst (snd f)) /\ (c_opt c = true <-> snd (snd f) <> None)) cs fs ->
  (forall a v, of_sort G x a v -> srt a v) ->
  forall c, In c cs -> field_sorted c fs.
Proof.
  intros N F Wk. induction F as [|c [k [w b]] cs fs (K & Sf & Of) F IH]; intros c' I; inversion N as [|? ? N1 N2]; subst; [contradiction|]. cbn in *. destruct I as [<-|I].
  - exists w, b. cbn. rewrite K, text_eqb_refl. auto.
  - destruct (IH N2 c' I) as (w' & b' & A & R). exists w', b'. split; auto. cbn. destruct (text_eqb k (c_name c')) eqn:Q; auto.
    apply text_eqb_eq in Q. exfalso. apply N1. rewrite <- K, Q. apply in_map. auto.
Qed.
Lemma sort_id a v : srt a v -> srt a v. Proof. auto. Qed.

Lemma fold_and tm ps : forall rs p r, Forall2 (fun p r => den tm p (VBool r)) ps rs -> den tm p (VBool r) ->
  den tm (fold_left T_and ps p) (VBool (fold_left andb rs r)).
Proof.
  induction ps as [|p' ps IH]; intros rs p r F D; inversion F; subst; cbn; auto. apply IH; auto. cbn. eauto 6.
Qed.
Lemma fold_andb rs : forall r, fold_left andb rs r = r && forallb (fun b => b) rs.
Proof. induction rs as [|r' rs IH]; intros r; cbn; [rewrite andb_true_r; auto|]. rewrite IH, andb_assoc. auto. Qed.

Lemma core_ok fuel : forall a b x y z w w' tm, core_equality G fuel a x y = Ok z -> den tm x w -> srt a w -> den tm y w' -> srt b w' ->
  a = b \/ (refs a /\ refs b) ->
  exists r, den tm z (VBool r) /\
    (forall s s', st a s -> w = enc a s -> st b s' -> w' = enc b s' -> (r = true <-> same s s')).
Proof.
  induction fuel as [|fuel IH]; intros a b x y z w w' tm E D O D' O' C.
  all: assert (Simple : forall z, Ok (T_cmp C_eq x y) = (Ok z : res loc term) -> exists r, den tm z (VBool r) /\
    (forall s s', st a s -> w = enc a s -> st b s' -> w' = enc b s' -> (r = true <-> same s s'))).
  1,3: intros z0 Ez; injection Ez as <-; destruct (eq_bool w w') as (r & R); exists r; split; [exists w, w', r; auto|];
    intros s s' St Ew St' Ew'; rewrite R; subst; split; [intros Q; eapply enc_inj; eauto|];
    intros Sm; rewrite (enc_same G junk s a s' Sm); destruct C as [<-|[Ra Rb]]; auto; destruct (st_ref _ _ _ _ _ St' Rb) as (o & ->); reflexivity.
  - destruct a; cbn in E; try discriminate; apply Simple; exact E.
  - destruct a as [| | | | | |u| | |]; try (apply Simple; exact E). clear Simple.
    destruct C as [<-|[Ra _]]; [|exfalso; apply Ra; reflexivity]. cbn in E. destruct (tup G u) as [ut|] eqn:Eu; [|discriminate].
    match type of E with bind ?m _ = _ => destruct m as [parts| | |] eqn:Ep end; cbn in E; try discriminate. injection E as <-.
    inversion O as [| | | | | |? ut1 fs Eu1 F1| | |]; subst. inversion O' as [| | | | | |? ut2 fs' Eu2 F2| | |]; subst.
    assert (ut1 = ut) by congruence. assert (ut2 = ut) by congruence. subst ut1 ut2.
    pose proof (names_tup _ _ Eu) as Nd.
    pose proof (fields_sorted _ _ _ Nd F1 sort_id) as S1. pose proof (fields_sorted _ _ _ Nd F2 sort_id) as S2.
    assert (P : exists rs, Forall2 (fun p r => den tm p (VBool r)) parts rs /\
      Forall2 (fun c r => forall o o', field_rep c fs o -> field_rep c fs' o' -> (r = true <-> osame o o')) (u_comps ut) rs).
    { clear - Ep S1 S2 IH D D'. revert parts Ep S1 S2. induction (u_comps ut) as [|c cs IHc]; intros parts Ep S1 S2.
      - injection Ep as <-. exists []. split; constructor.
      - destruct (core_equality G fuel (c_typ c) (T_value x (c_name c)) (T_value y (c_name c))) as [p| | |] eqn:Ec; cbn in Ep; try discriminate.
        match type of Ep with bind ?m _ = _ => destruct m as [ps| | |] eqn:Eps end; cbn in Ep; try discriminate. injection Ep as <-.
        destruct (IHc ps eq_refl ltac:(auto with datatypes) ltac:(auto with datatypes)) as (rs & R1 & R2). clear IHc.
        destruct (S1 c (or_introl eq_refl)) as (v & k & A & Ov & Ok1). destruct (S2 c (or_introl eq_refl)) as (v' & k' & A' & Ov' & Ok2).
        destruct (IH _ (c_typ c) _ _ _ v v' tm Ec) as (r & Dr & Hr); auto.
        { cbn. eauto 8. } { cbn. eauto 8. }
        destruct (c_opt c) eqn:Oc.
        + destruct k as [k|]; [|exfalso; apply Ok1; auto]. destruct k' as [k'|]; [|exfalso; apply Ok2; auto].
          exists ((Bool.eqb k k' && (negb k || r)) :: rs). split.
          * constructor; auto. cbn [sden].
            assert (Q : den tm (T_valid x (c_name c)) (VBool k)) by (cbn; eauto 8). assert (Q' : den tm (T_valid y (c_name c)) (VBool k')) by (cbn; eauto 8).
            exists (Bool.eqb k k'), (negb k || r). split; [|split; auto].
            { exists (VBool k), (VBool k'), (Bool.eqb k k'). split; auto. split; auto. split; auto. rewrite eqb_true_iff. split; congruence. }
            { exists k, r. auto. }
          * constructor; auto. intros o o' (w1 & k1 & A1 & V1 & K1 & _) (w2 & k2 & A2 & V2 & K2 & _). rewrite Oc in K1, K2.
            rewrite A in A1. injection A1 as <- <-. rewrite A' in A2. injection A2 as <- <-. injection K1 as ->. injection K2 as ->.
            destruct o as [s|], o' as [s'|]; cbn; try tauto; try (split; [discriminate|contradiction]).
            destruct (V1 s eq_refl) as [T1 ->]. destruct (V2 s' eq_refl) as [T2 ->]. apply Hr; auto.
        + exists (r :: rs). split; [constructor; auto|]. constructor; auto.
          intros o o' (w1 & k1 & A1 & V1 & K1 & N1) (w2 & k2 & A2 & V2 & K2 & N2). rewrite Oc in *.
          rewrite A in A1. injection A1 as <- <-. rewrite A' in A2. injection A2 as <- <-.
          destruct o as [s|]; [|specialize (N1 eq_refl); discriminate]. destruct o' as [s'|]; [|specialize (N2 eq_refl); discriminate].
          destruct (V1 s eq_refl) as [T1 ->]. destruct (V2 s' eq_refl) as [T2 ->]. cbn. apply Hr; auto. }
    destruct P as (rs & Ps & Rs). exists (forallb (fun b => b) rs). split.
    + destruct Ps as [|p r ps rs Dp Ps]; [reflexivity|]. cbn. rewrite <- fold_andb. apply fold_and; auto.
    + intros s s' St Ew St' Ew'. inversion St as [| | | | | |? ut1 xs Eu3 X1| | |]; subst. inversion St' as [| | | | | |? ut2 ys Eu4 X2| | |]; subst.
      assert (ut1 = ut) by congruence. assert (ut2 = ut) by congruence. subst ut1 ut2. rewrite (enc_tup _ _ _ _ xs Eu) in Ew. rewrite (enc_tup _ _ _ _ ys Eu) in Ew'. injection Ew as ->. injection Ew' as ->.
      apply (fields_rep _ _ _ Nd) in X1; auto. apply (fields_rep _ _ _ Nd) in X2; auto.
      clear - X1 X2 Rs. rewrite (same_tup xs ys). revert X1 X2 Rs. generalize (enc_fields (u_comps ut) xs), (enc_fields (u_comps ut) ys). intros fs fs'. generalize (u_comps ut).
      intros cs X1. revert ys rs. induction X1 as [|c f cs xs [Ek Rf] X1 IH]; intros ys rs X2 Rs; inversion X2 as [|? f' ? ? [Ek' Rf']]; subst; inversion Rs as [|? r ? ? Hr]; subst; cbn.
      * split; auto.
      * rewrite andb_true_iff, (Hr _ _ Rf Rf'), (IH _ _ ltac:(eassumption) ltac:(eassumption)). split.
        -- intros [A B]. constructor; auto. split; auto. congruence.
        -- intros F. inversion F as [|? ? ? ? [A B] F']; subst. auto.
Qed.

(** ** Translated expressions *)
Definition total tm (oa : option ty) (v : tval) : Prop :=
  match oa with
  | None => v = (None, T_false)
  | Some a => exists t w b, fst v = Some t /\ den tm t w /\ srt a w /\ den tm (snd v) (VBool b)
  end.
Definition rep tm (oa : option ty) (v : tval) (s : option sval) : Prop :=
  match s with
  | None => den tm (snd v) (VBool false)
  | Some x => den tm (snd v) (VBool true) /\ exists a t, oa = Some a /\ fst v = Some t /\ st a x /\ den tm t (enc a x)
  end.
Lemma rep_valid tm oa v s : rep tm oa v s -> den tm (snd v) (VBool (is_some s)).
Proof. destruct s; cbn; tauto. Qed.

Lemma comparable_refs a b : comparable G (Some a) (Some b) -> a = b \/ (refs a /\ refs b).
Proof. intros C. inversion C; subst; auto. right. split; unfold refs; congruence. Qed.

Lemma equality_ok op ta tb l r z tm : comparable G ta tb -> In op [B_eq; B_neq] ->
  equality_term G op ta tb l r = Ok z -> total tm ta l -> total tm tb r ->
  exists b, den tm z (VBool b) /\
    forall s s', rep tm ta l s -> rep tm tb r s' -> (b = true <-> if match op with B_neq => true | _ => false end then ~ osame s s' else osame s s').
Proof.
  intros C I E Tl Tr. unfold equality_term in E.
  match type of E with bind ?m _ = _ => destruct m as [e| | |] eqn:Ee end; cbn in E; try discriminate. injection E as <-.
  assert (Y : exists b, den tm e (VBool b) /\ forall s s', rep tm ta l s -> rep tm tb r s' -> (b = true <-> osame s s')).
  { assert (Core : forall x y z, match (match fst l with None => tb | Some _ => ta end) with Some a => core_equality G (tuple_fuel G) a x y | None => Crash end = Ok z ->
      fst l = Some x -> fst r = Some y -> exists b, den tm z (VBool b) /\ (forall s s', rep tm ta l (Some s) -> rep tm tb r (Some s') -> (b = true <-> same s s'))).
    { intros x y z Ez Fl Fr. rewrite Fl in Ez. destruct ta as [a|]; [|discriminate]. destruct tb as [b|]; [|cbn in Tr; subst r; discriminate].
      destruct Tl as (x' & w & bl & Fl' & Dw & Ow & _). destruct Tr as (y' & w' & br & Fr' & Dw' & Ow' & _).
      rewrite Fl in Fl'. rewrite Fr in Fr'. injection Fl' as <-. injection Fr' as <-.
      destruct (core_ok _ _ b _ _ _ w w' tm Ez) as (q & Dq & Hq); auto using comparable_refs.
      exists q. split; auto. intros s s' (_ & a' & t' & Ea & Ft & Sa & Da) (_ & b' & u' & Eb & Fu & Sb & Db). injection Ea as <-. injection Eb as <-.
      rewrite Fl in Ft. rewrite Fr in Fu. injection Ft as <-. injection Fu as <-. apply Hq; auto; eapply sden_fun; eauto. }
    assert (Vl : exists b, den tm (snd l) (VBool b)).
    { destruct ta; [destruct Tl as (? & ? & b & _ & _ & _ & ?); eauto|]. cbn in Tl. subst l. exists false. reflexivity. }
    assert (Vr : exists b, den tm (snd r) (VBool b)).
    { destruct tb; [destruct Tr as (? & ? & b & _ & _ & _ & ?); eauto|]. cbn in Tr. subst r. exists false. reflexivity. }
    destruct Vl as (bl & Vl), Vr as (br & Vr).
    assert (Nl : fst l = None -> forall s, rep tm ta l s -> s = None).
    { intros F s R. destruct s; auto. destruct R as (_ & ? & ? & _ & ? & _). congruence. }
    assert (Nr : fst r = None -> forall s, rep tm tb r s -> s = None).
    { intros F s R. destruct s; auto. destruct R as (_ & ? & ? & _ & ? & _). congruence. }
    assert (Il : forall s, rep tm ta l s -> bl = is_some s). { intros s R. eapply sden_bool; eauto. eapply rep_valid; eauto. }
    assert (Ir : forall s, rep tm tb r s -> br = is_some s). { intros s R. eapply sden_bool; eauto. eapply rep_valid; eauto. }
    assert (St : forall t b, is_static_true t = true -> den tm t (VBool b) -> b = true).
    { intros t b S D. destruct t; cbn in S; try discriminate. destruct k; try discriminate. cbn in D. congruence. }
    assert (Sf : forall t b, is_static_false t = true -> den tm t (VBool b) -> b = false).
    { intros t b S D. destruct t; cbn in S; try discriminate. destruct k; try discriminate. cbn in D. injection D as ->. destruct b0; [discriminate|auto]. }
    destruct (is_static_true (snd l) && is_static_true (snd r)) eqn:S1.
    - apply andb_true_iff in S1 as [S1 S2]. destruct (fst l) as [x|] eqn:Fl; cbn in Ee; [|discriminate]. destruct (fst r) as [y|] eqn:Fr; cbn in Ee; [|discriminate].
      destruct (Core x y e) as (b & Db & Hb); auto. exists b. split; auto. intros s s' R R'.
      pose proof (Il _ R). pose proof (Ir _ R'). pose proof (St _ _ S1 Vl). pose proof (St _ _ S2 Vr). destruct s, s'; try (cbn in *; congruence). apply Hb; auto.
    - clear S1. destruct (is_static_false (snd l) && is_static_false (snd r)) eqn:S1.
      + apply andb_true_iff in S1 as [S1 S2]. injection Ee as <-. exists true. split; [reflexivity|]. intros s s' R R'.
        pose proof (Il _ R). pose proof (Ir _ R'). pose proof (Sf _ _ S1 Vl). pose proof (Sf _ _ S2 Vr). destruct s, s'; cbn in *; try congruence. tauto.
      + destruct (fst l) as [x|] eqn:Fl; [destruct (fst r) as [y|] eqn:Fr|].
        * match type of Ee with bind ?m _ = _ => destruct m as [cc| | |] eqn:Ec end; cbn in Ee; try discriminate. injection Ee as <-.
          destruct (Core x y cc) as (b & Db & Hb); auto. exists (Bool.eqb bl br && (negb bl || b)). split.
          -- exists (Bool.eqb bl br), (negb bl || b). split; [|split; auto].
             ++ exists (VBool bl), (VBool br), (Bool.eqb bl br). split; auto. split; auto. split; auto. rewrite eqb_true_iff. split; congruence.
             ++ exists bl, b. auto.
          -- intros s s' R R'. rewrite (Il _ R), (Ir _ R'). destruct s, s'; cbn; try tauto; try (split; [discriminate|contradiction]). apply Hb; auto.
        * injection Ee as <-. exists (negb bl). split; [exists bl; auto|]. intros s s' R R'. rewrite (Nr eq_refl _ R'), (Il _ R). destruct s; cbn; split; try discriminate; tauto.
        * injection Ee as <-. exists (negb br). split; [exists br; auto|]. intros s s' R R'. rewrite (Nl eq_refl _ R), (Ir _ R'). destruct s'; cbn; split; try discriminate; tauto. }
  destruct Y as (b & Db & Hb). destruct I as [<-|[<-|[]]].
  - exists b. split; auto.
  - exists (negb b). split; [exists b; auto|]. intros s s' R R'. specialize (Hb s s' R R'). destruct b; cbn; split; intros X; try discriminate; try tauto.
    + intros Q. apply Hb in Q. discriminate.
Qed.
End EQ.
