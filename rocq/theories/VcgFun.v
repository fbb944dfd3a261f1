(** The translation without goals, [tr_functional], means what the manual says. *)
From Coq Require Import Relations Qcanon Qabs.
From Verif Require Import Base Lexer MathModel MathProofs Ast Eval TypesProofs Typing Soundness EvalSpec EvalSpecProofs EvalCorrect SemEval Vcg VcgSem VcgEnc VcgOps VcgEq.
Open Scope Z_scope.

Definition vplain (e : expr) : Prop := forall x, sub x e -> plain_at x /\ conv_at x.
Lemma vplain_plain e : vplain e -> plain e.
Proof. intros P x X. apply P; auto. Qed.
Lemma vplain_unary l a op e : vplain (EUnary l a op e) -> vplain e.
Proof. intros P x X. apply P. constructor; auto. Qed.
Lemma vplain_left l a op e f : vplain (EBinary l a op e f) -> vplain e.
Proof. intros P x X. apply P. constructor; auto. Qed.
Lemma vplain_right l a op e f : vplain (EBinary l a op e f) -> vplain f.
Proof. intros P x X. apply P. apply sub_right; auto. Qed.
Lemma vplain_field l c p un uv : vplain (EField l c p un uv) -> vplain p.
Proof. intros P x X. apply P. constructor; auto. Qed.
Lemma vplain_range1 l a b c : vplain (ERange l a b c) -> vplain a.
Proof. intros P x X. apply P. constructor; auto. Qed.
Lemma vplain_range2 l a b c : vplain (ERange l a b c) -> vplain b.
Proof. intros P x X. apply P. apply sub_range2; auto. Qed.
Lemma vplain_range3 l a b c : vplain (ERange l a b c) -> vplain c.
Proof. intros P x X. apply P. apply sub_range3; auto. Qed.
Lemma vplain_oneof l es e : vplain (EOneof l es) -> In e es -> vplain e.
Proof. intros P I x X. apply P. eapply sub_oneof; eauto. Qed.
Lemma vplain_cond l acts els c e : vplain (ECond l acts els) -> In (c, e) acts -> vplain c /\ vplain e.
Proof. intros P I. split; intros x X; apply P; eapply sub_cond; eauto. Qed.
Lemma vplain_else l acts els : vplain (ECond l acts els) -> vplain els.
Proof. intros P x X. apply P. apply sub_else; auto. Qed.
Lemma vplain_quant l un v ls src b : vplain (EQuant l un v ls src b) -> vplain b.
Proof. intros P x X. apply P. constructor; auto. Qed.

(** Types with a value, also their elements. *)
Fixpoint okt (G : types) (a : ty) : Prop := usable G a /\ match a with TArr _ _ _ el => okt G el | _ => True end.
Lemma okt_usable G a : okt G a -> usable G a.
Proof. destruct a; cbn; tauto. Qed.

Section FUN.
Variable G : types.
Variable W : world.
Variable junk : ty -> sv.
Variable M : model.
Hypothesis wf : wf_types G.
Hypothesis ww : wt_world G W.
Hypothesis names_rec : forall r, NoDup (map c_name (all_components G r)).
Hypothesis names_tup : forall u ut, nth_error (tups G) u = Some ut -> NoDup (map c_name (u_comps ut)).
Hypothesis apart : distinct_objects W.
Hypothesis junk_ok : forall a, usable G a -> of_sort G true a (junk a).
Hypothesis tup_usable : forall u ut c, tup G u = Some ut -> In c (u_comps ut) -> usable G (c_typ c).
(** The model *)
Hypothesis match_ok : forall p s r, w_match W p s = Some r -> m_match M s p = r.
Hypothesis rec_sorted : forall r z c, In c (all_components G r) -> has_field G (c_name c) (c_typ c) (c_opt c) (m_deref M (F_record r) z).
Hypothesis union_sorted : forall ms z k info a, assoc k (field_map G ms) = Some info -> fi_typ info = Some a -> has_field G k a (has_valid info) (m_deref M (F_union ms) z).
Hypothesis nth_sorted : forall el xs z, usable G el -> of_sort G true el (m_nth M el xs z).

Notation st := (st G W false).
Notation enc := (enc G junk).
Notation enc_fields := (enc_fields G junk).
Notation den := (sden M).
Notation srt := (of_sort G false).
Notation ssem := (ssem W).
Notation total := (total G M).
Notation rep := (rep G W junk M).

(** What the model says about the objects. *)
Definition stored_as (opt : bool) (a : ty) (o : option vexpr) (fs : list (text * (sv * option bool))) (n : text) : Prop :=
  exists w, assoc n fs = Some (w, if opt then Some (match o with Some v => is_some (sval_of v) | None => false end) else None) /\
    (forall v s, o = Some v -> sval_of v = Some s -> st a s /\ w = enc a s) /\
    (opt = false -> exists v s, o = Some v /\ sval_of v = Some s).
Hypothesis rec_data : forall r o ob c, nth_error (w_objs W) o = Some ob -> fits_record G ob r -> In c (all_components G r) ->
  exists fs, m_deref M (F_record r) (Z.of_nat o) = VRec fs /\ stored_as (c_opt c) (c_typ c) (option_map snd (assoc (c_name c) (o_fields ob))) fs (c_name c).
Hypothesis union_data : forall ms o ob k info a, nth_error (w_objs W) o = Some ob -> fits_union G ob ms ->
  assoc k (field_map G ms) = Some info -> fi_typ info = Some a -> coherent G ms k a ->
  exists fs, m_deref M (F_union ms) (Z.of_nat o) = VRec fs /\ stored_as (has_valid info) a (option_map snd (assoc k (o_fields ob))) fs k.
Hypothesis rec_comps : forall r c, In c (own_components G r) -> In c (all_components G r).

Lemma same_rep tm oa v s s' : rep tm oa v s -> osame s s' -> rep tm oa v s'.
Proof.
  destruct s as [x|], s' as [y|]; cbn; try contradiction; auto. intros (V & a & t & E & F & T & D) Sm. split; auto. exists a, t.
  split; auto. split; auto. split; [eapply st_typed; eauto|]. rewrite <- (enc_same G junk x a y Sm). auto.
Qed.
Lemma has_sorted n a opt v : has_field G n a opt v -> exists fs w k, v = VRec fs /\ assoc n fs = Some (w, k) /\ srt a w /\ (opt = true <-> k <> None).
Proof. intros (fs & w & k & E & A & O & K). exists fs, w, k. eauto using sort_weaken. Qed.

Lemma static_value S d f s : wt G W true S f -> vplain f -> scope_ok G W S d -> ssem d f (Some s) -> static_as W f s.
Proof.
  intros T P K X v E. destruct (evaluates G W wf ww names_rec names_tup apart f S d (Some s) T K (vplain_plain _ P) (ssem_sem _ _ _ _ X)) as (v' & E' & O).
  rewrite (static_any W f v E (Some d)) in E'. injection E' as <-. auto.
Qed.

Lemma stored_rep tm x n opt a o fs : stored_as opt a o fs n -> den tm x (VRec fs) ->
  rep tm (Some a) (Some (T_value x n), if opt then T_valid x n else T_true) (match o with Some v => sval_of v | None => None end).
Proof.
  intros (w & A & V & N) D. set (s := match o with Some v => sval_of v | None => None end).
  assert (Dv : den tm (snd (Some (T_value x n), if opt then T_valid x n else T_true)) (VBool (is_some s))).
  { cbn [snd]. destruct opt.
    - cbn. exists fs, w. eexists. split; [exact D|]. split; [exact A|]. unfold s. destruct o; auto.
    - destruct (N eq_refl) as (v & x0 & -> & E). unfold s. rewrite E. reflexivity. }
  destruct s as [y|] eqn:Es; [|exact Dv]. split; [exact Dv|]. unfold s in Es. destruct o as [v|]; [|discriminate]. destruct (V v y eq_refl Es) as [T ->].
  exists a, (T_value x n). split; auto. split; auto. split; auto. cbn. eauto 8.
Qed.


Lemma field_ok S l c p un uv x v tm a w : wt G W true S (EField l c p un uv) -> e_typ p = Some a ->
  field_access G c (Some a) x = Ok v -> den tm x w -> srt a w ->
  total tm (Some (c_typ c)) v /\
  forall d s, ssem d p (Some s) -> st a s -> w = enc a s ->
    exists s', ssem d (EField l c p un uv) s' /\ rep tm (Some (c_typ c)) v s'.
Proof.
  intros T E F D O.
  assert (Tot : forall y fs w' k (opt : bool), den tm y (VRec fs) -> assoc (c_name c) fs = Some (w', k) -> srt (c_typ c) w' -> (opt = true <-> k <> None) ->
    total tm (Some (c_typ c)) (Some (T_value y (c_name c)), if opt then T_valid y (c_name c) else T_true)).
  { intros y fs w' k opt Dy A Ow K. cbn. destruct opt.
    - destruct k as [k|]; [|exfalso; apply K; auto]. exists (T_value y (c_name c)), w', k. split; auto. split; [cbn; eauto 8|]. split; auto. cbn. eauto 8.
    - exists (T_value y (c_name c)), w', true. split; auto. split; [cbn; eauto 8|]. split; auto. reflexivity. }
  inversion T; subst; match goal with H : e_typ p = Some _ |- _ => (tryif constr_eq H E then fail else (rewrite H in E; injection E as E; subst a)) end; cbn [field_access] in F.
  - injection F as <-. inversion O as [| | | | | |? ut1 fs Eu F1| | |]; subst. match goal with H : nth_error (tups G) u = Some _ |- _ => rename H into Eu' end. unfold tup in Eu. rewrite Eu' in Eu. injection Eu as <-.
    pose proof (names_tup _ _ Eu') as Nd. split.
    + destruct (fields_sorted G _ _ _ Nd F1 (sort_id G) c) as (w' & k & A & Ow & K); auto. eapply Tot; eauto.
    + intros d s X St Ew. inversion St as [| | | | | |? ut1 xs Eu3 X1| | |]; subst. unfold tup in Eu3. rewrite Eu' in Eu3. injection Eu3 as <-.
      rewrite (enc_tup G junk u ut xs Eu') in Ew. injection Ew as ->. pose proof (fields_rep G W junk _ _ _ Nd X1 ltac:(auto)) as R.
      assert (Y : exists o, assoc (c_name c) xs = Some o /\ field_rep G W junk c (enc_fields (u_comps ut) xs) o).
      { match goal with I : In c (u_comps ut) |- _ => revert I end. clear - R Nd. revert R. generalize (enc_fields (u_comps ut) xs). intros fs R. induction R as [|c0 [k o] cs xs [Ek Rf] R IH]; intros I; [contradiction|].
        cbn in *. inversion Nd as [|? ? N1 N2]; subst. destruct I as [<-|I]; [rewrite text_eqb_refl; eauto|].
        destruct (IH N2 I) as (o' & A & R'). exists o'. split; auto. destruct (text_eqb (c_name c0) (c_name c)) eqn:Q; auto. apply text_eqb_eq in Q. exfalso. apply N1. rewrite Q. apply in_map. auto. }
      destruct Y as (o & A & w' & k & A' & V & K & N). exists o. split; [eapply ss_tuple_field; eauto|].
      destruct o as [y|]; cbn.
      * destruct (V y eq_refl) as [Ty ->]. split.
        -- destruct (c_opt c); [|reflexivity]. subst k. cbn. eauto 8.
        -- exists (c_typ c), (T_value x (c_name c)). split; auto. split; auto. split; auto. cbn. eauto 8.
      * rewrite (N eq_refl) in *. subst k. cbn. eauto 8.
  - injection F as <-. inversion O; subst. assert (Ic : In c (all_components G r)) by auto. split.
    + destruct (has_sorted _ _ _ _ (rec_sorted r z c Ic)) as (fs & w' & k & Em & A & Ow & K). eapply Tot; eauto. cbn. exists z. auto.
    + intros d s X St Ew. inversion St as [| | | | | | |? o ob Eo Fo| |]; subst. cbn in Ew. injection Ew as ->.
      destruct (rec_data _ _ _ _ Eo Fo Ic) as (fs & Em & Sa).
      pose proof (object_field _ _ ww _ _ (c_name c) Eo) as Of. destruct (assoc (c_name c) (o_fields ob)) as [[id v]|] eqn:Ao.
      * assert (Dv : den tm (T_deref (F_record r) x) (VRec fs)) by (cbn; eauto). pose proof (stored_rep tm _ _ _ _ _ _ Sa Dv) as Rp. cbn [option_map snd] in Rp.
        destruct Of as (c' & _ & _ & Fv).
        assert (Sv : stores v (sval_of v)).
        { destruct Fv as [Fv|(_ & l0 & ->)]; [|constructor]. destruct (vt_stores _ _ _ _ Fv) as (s0 & -> & S0). exact S0. }
        exists (sval_of v). split; [eapply ss_record_field; eauto|exact Rp].
      * exfalso. destruct (ww _ _ Eo) as (Lt & _). apply (Of c); auto. eapply components_inherited; eauto.
  - destruct (assoc (c_name (fi_comp info)) (field_map G ms)) as [info'|] eqn:Af; [|discriminate].
    match goal with H : Some _ = Some info |- _ => injection H as -> end. match goal with H : fi_typ info = _ |- _ => rename H into Ft end. rewrite Ft in F. injection F as <-.
    inversion O; subst. split.
    + destruct (has_sorted _ _ _ _ (union_sorted ms z _ info _ Af Ft)) as (fs & w' & k & Em & A & Ow & K). eapply Tot; eauto. cbn. exists z. auto.
    + intros d s X St Ew. inversion St as [| | | | | | | |? ? o ob Eo Fo|]; subst. cbn in Ew. injection Ew as ->.
      match goal with H : true = true -> coherent _ _ _ _ |- _ => specialize (H eq_refl); rename H into Co end.
      destruct (union_data _ _ _ _ _ _ Eo Fo Af Ft Co) as (fs & Em & Sa).
      assert (Dv : den tm (T_deref (F_union ms) x) (VRec fs)) by (cbn; eauto). pose proof (stored_rep tm _ _ _ _ _ _ Sa Dv) as Rp.
      pose proof (object_field _ _ ww _ _ (c_name (fi_comp info)) Eo) as Of. destruct (assoc (c_name (fi_comp info)) (o_fields ob)) as [[id v]|] eqn:Ao; cbn [option_map snd] in Rp.
      * destruct Of as (c' & _ & _ & Fv).
        assert (Sv : stores v (sval_of v)).
        { destruct Fv as [Fv|(_ & l0 & ->)]; [|constructor]. destruct (vt_stores _ _ _ _ Fv) as (s0 & -> & S0). exact S0. }
        exists (sval_of v). split; [eapply ss_record_field; eauto|exact Rp].
      * exists None. split; [eapply ss_union_null; eauto|exact Rp].
Qed.

(** ** Scopes *)
Definition Etot (S : scope) (env : tenv) (tm : nat -> sv) : Prop :=
  forall n a opt, assoc n S = Some (a, opt) -> exists x k w b, assoc n env = Some (x, k) /\ den tm x w /\ srt a w /\ den tm k (VBool b).
Definition Erep (S : scope) (env : tenv) (d : list (text * vexpr)) (tm : nat -> sv) : Prop :=
  forall n a opt, assoc n S = Some (a, opt) ->
    exists x k v, assoc n env = Some (x, k) /\ assoc n d = Some v /\ fits G W a opt v /\ rep tm (Some a) (Some x, k) (sval_of v).
Lemma Erep_scope S env d tm : Erep S env d tm -> scope_ok G W S d.
Proof. intros E n a opt A. destruct (E _ _ _ A) as (x & k & v & _ & D & F & _). eauto. Qed.
Lemma fits_stores a opt v : fits G W a opt v -> stores v (sval_of v).
Proof. intros [V|(_ & l & ->)]; [|constructor]. destruct (vt_stores _ _ _ _ V) as (s & -> & S0). exact S0. Qed.

Lemma total_some tm a v : total tm (Some a) v -> exists t w b, v = (Some t, snd v) /\ den tm t w /\ srt a w /\ den tm (snd v) (VBool b).
Proof. intros (t & w & b & E & D & O & B). exists t, w, b. destruct v; cbn in *. subst. auto. Qed.
Lemma rep_some tm a t k s w : rep tm (Some a) (Some t, k) (Some s) -> den tm t w -> st a s /\ w = enc a s.
Proof. intros (_ & a' & t' & E & F & T & D) D'. injection E as <-. injection F as <-. split; auto. eapply sden_fun; eauto. Qed.
Lemma total_true tm a x w : den tm x w -> srt a w -> total tm (Some a) (Some x, T_true).
Proof. intros D O. exists x, w, true. repeat split; auto. Qed.
Lemma rep_true tm a x w s : den tm x w -> st a s -> w = enc a s -> rep tm (Some a) (Some x, T_true) (Some s).
Proof. intros D T ->. split; [reflexivity|]. exists a, x. auto. Qed.

Definition fun_ok (e : expr) : Prop := forall S env tm v, wt G W true S e -> vplain e -> Etot S env tm ->
  tr_functional G W env e = Ok v ->
  total tm (e_typ e) v /\ forall d s, Erep S env d tm -> ssem d e s -> rep tm (e_typ e) v s.

Ltac step E := match type of E with bind ?m _ = _ => let r := fresh "r" in let Er := fresh "Er" in destruct m as [r| | |] eqn:Er; cbn [bind] in E; try discriminate end.

Lemma fun_all e : fun_ok e.
Proof.
  induction e using expr_ind2; intros S env tm tv T P Et E; cbn [tr_functional] in E.
  - injection E as <-. split; [reflexivity|]. intros d s Er X. inversion X; subst. reflexivity.
  - injection E as <-. cbn [e_typ]. assert (srt (lit_typ k) (lit_sv k) /\ st (lit_typ k) (of_lit k) /\ lit_sv k = enc (lit_typ k) (of_lit k)) as (A & B & C).
    { destruct k as [| |? []| |]; cbn; repeat split; try constructor; try discriminate; auto. }
    split; [eapply total_true; [reflexivity|exact A]|]. intros d s Er X. inversion X; subst. eapply rep_true; [reflexivity| |]; auto.
  - inversion T; subst. match goal with H : assoc n S = Some _ |- _ => rename H into A end. cbn [e_typ].
    unfold name_reference in E. destruct (Et _ _ _ A) as (x & k & w & b & Ae & D & O & B). rewrite Ae in E. cbn in E. injection E as <-. split.
    + exists x, w, b. auto.
    + intros d s Er X. inversion X; subst. destruct (Er _ _ _ A) as (x' & k' & v' & Ae' & Ad & F & R).
      rewrite Ae in Ae'. injection Ae' as <- <-. match goal with H : assoc n d = Some _ |- _ => rewrite Ad in H; injection H as <- end.
      eapply same_rep; [exact R|]. eapply stores_same; eauto. eapply fits_stores; eauto.
  - step E. destruct r as [x ?]. assert (exists b, e_typ e = Some b) as [b Eb] by (inversion T; subst; eauto).
    destruct (IHe S env tm (x, t) ltac:(inversion T; subst; assumption) (vplain_unary _ _ _ _ P) Et Er) as [Te Re].
    rewrite Eb in Te, Re. destruct (total_some _ _ _ Te) as (y & w & bv & Ev & Dy & Oy & _). injection Ev as ->. cbn [some_value bind] in E.
    step E. injection E as <-. rewrite Eb in Er0.
    destruct (unary_ok G W junk M S l a op e y r tm b w T ltac:(apply P; constructor) Eb Er0 Dy Oy) as (b' & w' & -> & Dr & Or & Hr).
    cbn [e_typ]. split; [eapply total_true; eauto|]. intros d s Re' X. inversion X; subst.
    match goal with H : ssem d e (Some _), O : op_unary _ _ _ |- _ => pose proof (Re _ _ Re' H) as R; destruct (rep_some _ _ _ _ _ _ R Dy) as [St Ew]; destruct (Hr _ _ St Ew O) as [St' Ew'] end.
    eapply rep_true; eauto.
  - assert (P1 : vplain e1) by exact (vplain_left _ _ _ _ _ P). assert (P2 : vplain e2) by exact (vplain_right _ _ _ _ _ P).
    assert (T1 : wt G W true S e1) by (inversion T; subst; auto). assert (T2 : wt G W true S e2) by (inversion T; subst; auto).
    assert (Lg : In op [B_and; B_or; B_implies] -> e_typ e1 = Some TBool /\ e_typ e2 = Some TBool /\ a = Some TBool).
    { clear - T; intros I. inversion T; subst; first [exfalso; in_cases; subst; discriminate | auto]. }
    assert (Eq : In op [B_eq; B_neq] -> comparable G (e_typ e1) (e_typ e2) /\ a = Some TBool).
    { clear - T; intros I. inversion T; subst; first [exfalso; in_cases; subst; discriminate | auto]. }
    assert (Cases : In op [B_eq; B_neq] \/ In op [B_and; B_or; B_implies] \/ strict_op op).
    { unfold strict_op. destruct op; cbn; auto 8; right; right; intros I; intuition discriminate. }
    destruct Cases as [C|[C|C]].
    + destruct (Eq C) as [Cm ->].
      assert (E' : (do x <- tr_functional G W env e1 ; do y <- tr_functional G W env e2 ;
          do z <- equality_term G op (e_typ e1) (e_typ e2) x y ; Ok (Some z, T_true)) = Ok tv) by (destruct op; try (exfalso; clear - C; cbn in C; intuition discriminate); exact E).
      clear E. step E'. step E'. step E'. injection E' as <-.
      destruct (IHe1 S env tm r T1 P1 Et Er) as [Tl Rl]. destruct (IHe2 S env tm r0 T2 P2 Et Er0) as [Tr Rr].
      destruct (equality_ok G W junk M names_tup op _ _ r r0 r1 tm Cm C Er1 Tl Tr) as (b & Db & Hb). cbn [e_typ]. split; [eapply total_true; eauto; constructor|].
      intros d s Re X. inversion X; subst; try (exfalso; clear - C; cbn in C; intuition discriminate).
      * match goal with A : ssem d e1 _, B : ssem d e2 _, R : _ = true <-> _ |- _ => specialize (Hb _ _ (Rl _ _ Re A) (Rr _ _ Re B)); cbn in Hb; pose proof (bool_iff _ _ _ _ Hb R (iff_refl _)) as Eb end.
        subst b. eapply rep_true; eauto. constructor.
      * match goal with A : ssem d e1 _, B : ssem d e2 _, R : _ = true <-> _ |- _ => specialize (Hb _ _ (Rl _ _ Re A) (Rr _ _ Re B)); cbn in Hb; pose proof (bool_iff _ _ _ _ Hb R (iff_refl _)) as Eb end.
        subst b. eapply rep_true; eauto. constructor.
      * exfalso. match goal with H : strict_op _ |- _ => apply H end. clear - C; cbn in C |- *; intuition.
    + destruct (Lg C) as (Ea & Eb & ->).
      assert (E' : exists x y kx ky z, tr_functional G W env e1 = Ok (Some x, kx) /\ tr_functional G W env e2 = Ok (Some y, ky) /\ tv = (Some z, T_true) /\
        z = match op with B_and => T_and x y | B_or => T_or x y | _ => T_implies x y end).
      { assert (E' : (do (x, _) <- tr_functional G W env e1 ; do (y, _) <- tr_functional G W env e2 ;
          do x <- some_value x ; do y <- some_value y ; Ok (Some match op with B_and => T_and x y | B_or => T_or x y | _ => T_implies x y end, T_true)) = Ok tv)
          by (destruct op; try (exfalso; clear - C; cbn in C; intuition discriminate); exact E).
        clear E. step E'. destruct r as [x kx]. step E'. destruct r as [y ky]. destruct x as [x|]; [|discriminate]. destruct y as [y|]; [|discriminate]. cbn in E'. injection E' as <-. eauto 12. }
      destruct E' as (x & y & kx & ky & z & Er & Er0 & -> & Ez). clear E.
      destruct (IHe1 S env tm _ T1 P1 Et Er) as [Tl Rl]. destruct (IHe2 S env tm _ T2 P2 Et Er0) as [Tr Rr]. rewrite Ea in Tl, Rl. rewrite Eb in Tr, Rr.
      destruct (total_some _ _ _ Tl) as (x' & w & b1 & E1 & Dx & Ox & _). injection E1 as <-. destruct (total_some _ _ _ Tr) as (y' & w' & b2 & E2 & Dy & Oy & _). injection E2 as <-.
      inversion Ox; subst w. inversion Oy; subst w'. cbn [e_typ].
      assert (Dz : den tm z (VBool match op with B_and => b && b0 | B_or => b || b0 | _ => negb b || b0 end)).
      { subst z. destruct op; try (exfalso; clear - C; cbn in C; intuition discriminate); cbn; eauto 8. }
      split; [eapply total_true; eauto; constructor|].
      intros d s Re X. 
      assert (V1 : forall q, ssem d e1 (Some (SBool q)) -> b = q) by (intros q Q; destruct (rep_some _ _ _ _ _ _ (Rl _ _ Re Q) Dx) as [_ Q1]; cbn in Q1; congruence).
      assert (V2 : forall q, ssem d e2 (Some (SBool q)) -> b0 = q) by (intros q Q; destruct (rep_some _ _ _ _ _ _ (Rr _ _ Re Q) Dy) as [_ Q1]; cbn in Q1; congruence).
      inversion X; subst; try (exfalso; clear - C; cbn in C; intuition discriminate);
        try (exfalso; match goal with H : strict_op _ |- _ => apply H end; clear - C; cbn in C |- *; intuition; fail);
        (eapply rep_true; [exact Dz|constructor|]); cbn [enc];
        repeat match goal with H : ssem d e1 _ |- _ => apply V1 in H; subst | H : ssem d e2 _ |- _ => apply V2 in H; subst end; cbn; auto.
    + assert (E' : (do (x, _) <- tr_functional G W env e1 ; do (y, _) <- tr_functional G W env e2 ;
          do x <- some_value x ; do y <- some_value y ;
              match op_goals op (e_typ e1) x y with
              | [] => do z <- binary_term W l op (e_typ e1) e2 x y ; Ok (Some z, T_true)
              | _ => Crash
              end) = Ok tv) by (destruct op; try (exfalso; apply C; cbn; tauto); exact E). clear E.
      step E'. destruct r as [x kx]. step E'. destruct r as [y ky]. destruct x as [x|]; [|discriminate]. destruct y as [y|]; [|discriminate]. cbn [some_value bind] in E'.
      destruct (op_goals op (e_typ e1) x y) as [|g gs] eqn:Eg; [|discriminate]. step E'. injection E' as <-.
      destruct (IHe1 S env tm _ T1 P1 Et Er) as [Tl Rl]. destruct (IHe2 S env tm _ T2 P2 Et Er0) as [Tr Rr].
      assert (exists a1 a2, e_typ e1 = Some a1 /\ e_typ e2 = Some a2) as (a1 & a2 & Ea & Eb).
      { inversion T; subst; eauto; exfalso; apply C; cbn in *; tauto. }
      rewrite Ea in *. rewrite Eb in *.
      destruct (total_some _ _ _ Tl) as (x' & w & b1 & E1 & Dx & Ox & _). injection E1 as <-. destruct (total_some _ _ _ Tr) as (y' & w' & b2 & E2 & Dy & Oy & _). injection E2 as <-.
      destruct (binary_ok G W junk M junk_ok tup_usable names_tup match_ok S l a op e1 e2 x y r tm a1 a2 w w' T ltac:(apply P; constructor) C Ea Eb Er1 Dx Ox Dy Oy) as (b' & wz & -> & Dz & Oz & Hz).
      { intros ->. discriminate. }
      { intros I. exfalso. destruct I as [<-|[<-|[]]]; inversion T; subst; in_cases; subst; try discriminate; match goal with H : e_typ e1 = Some _ |- _ => (tryif constr_eq H Ea then fail else idtac); rewrite H in Ea; injection Ea as <- end; cbn in Eg; discriminate. }
      cbn [e_typ]. split; [eapply total_true; eauto|]. intros d s Re X.
      inversion X; subst; try (exfalso; apply C; cbn; tauto).
      match goal with A : ssem d e1 _, B : ssem d e2 _, O : op_binary _ _ _ _ _ _ |- _ =>
        destruct (rep_some _ _ _ _ _ _ (Rl _ _ Re A) Dx) as [St1 W1]; destruct (rep_some _ _ _ _ _ _ (Rr _ _ Re B) Dy) as [St2 W2];
        rewrite Ea in O; destruct (Hz _ _ _ St1 W1 St2 W2 (static_value _ _ _ _ T2 P2 (Erep_scope _ _ _ _ Re) B) O) as [Stz Wz] end.
      eapply rep_true; eauto.
  - step E. destruct r as [x k]. destruct x as [x|]; [|discriminate]. cbn [some_value bind] in E.
    assert (Tp : wt G W true S e) by (inversion T; subst; auto).
    destruct (IHe S env tm _ Tp (vplain_field _ _ _ _ _ P) Et Er) as [Te Re].
    assert (exists b, e_typ e = Some b) as [b Eb] by (inversion T; subst; eauto). rewrite Eb in *.
    destruct (total_some _ _ _ Te) as (x' & w & b1 & E1 & Dx & Ox & _). injection E1 as <-.
    destruct (field_ok S l c e un uv x tv tm b w T Eb E Dx Ox) as [Tf Rf]. cbn [e_typ]. split; auto.
    intros d s Re' X.
    assert (exists q, ssem d e (Some q)) as [q Xq] by (inversion X; subst; eauto).
    destruct (rep_some _ _ _ _ _ _ (Re _ _ Re' Xq) Dx) as [St Ew]. destruct (Rf d q Xq St Ew) as (s' & X' & R').
    eapply same_rep; [exact R'|]. eapply ssem_unique; eauto.
  - exfalso. step E.
  - exfalso. destruct es; [discriminate|]. step E.
  - inversion T; subst.
    match goal with H : e_typ e = Some ?q, N : _ <> [], F : (forall c x, In (c, x) acts -> e_typ c = _ /\ _), F' : (forall c x, In (c, x) acts -> wt _ _ _ _ _ /\ _) |- _ =>
      rename H into Ee; rename N into Ne; rename F into Ft; rename F' into Fw; set (a0 := q) in * end.
    match goal with H : wt G W true S e |- _ => rename H into Tels end.
    assert (Pa : forall c x, In (c, x) acts -> vplain c /\ vplain x) by (intros c0 x0 I0; exact (vplain_cond _ _ _ _ _ P I0)).
    assert (Pe : vplain e) by exact (vplain_else _ _ _ P).
    assert (Et' : e_typ (ECond l acts e) = Some a0).
    { destruct acts as [|[c x] acts]; [congruence|]. cbn. eapply Ft. left. reflexivity. }
    rewrite Et'. clear Ne Et' T P.
    revert tv E. induction acts as [|[c x] acts IHa]; intros tv E.
    + step E. destruct r as [x k]. injection E as <-. destruct (IHe S env tm _ Tels Pe Et Er) as [Te Re]. rewrite Ee in *.
      destruct (total_some _ _ _ Te) as (x' & w & b & E1 & Dx & Ox & _). injection E1 as ->. split; [eapply total_true; eauto|].
      intros d s Rd X. inversion X; subst. match goal with A : ssem d e _ |- _ => destruct (rep_some _ _ _ _ _ _ (Re _ _ Rd A) Dx) as [St1 W1] end. eapply rep_true; eauto.
    + step E. destruct r as [r kr]. step E. destruct r0 as [s0 ks]. step E. destruct r0 as [y ky].
      destruct s0 as [s0|]; [|discriminate]. destruct y as [y|]; [|discriminate]. destruct r as [r|]; [|discriminate]. cbn in E. injection E as <-.
      destruct (IHa ltac:(intros; eapply H; eauto with datatypes) ltac:(intros; eapply Ft; eauto with datatypes) ltac:(intros; eapply Fw; eauto with datatypes) ltac:(intros; eapply Pa; eauto with datatypes) _ eq_refl) as [Ta Ra].
      destruct (H c x (or_introl eq_refl)) as [Hc Hx]. destruct (Ft c x (or_introl eq_refl)) as [Ec Ex]. destruct (Fw c x (or_introl eq_refl)) as [Wc Wx]. destruct (Pa c x (or_introl eq_refl)) as [Pc Px].
      destruct (Hc S env tm _ Wc Pc Et Er0) as [Tc Rc]. destruct (Hx S env tm _ Wx Px Et Er1) as [Tx Rx]. rewrite Ec in *. rewrite Ex in *.
      destruct (total_some _ _ _ Tc) as (s' & wc & b1 & E1 & Dc & Oc & _). injection E1 as <-.
      destruct (total_some _ _ _ Tx) as (y' & wx & b2 & E2 & Dx & Ox & _). injection E2 as <-.
      destruct (total_some _ _ _ Ta) as (r' & wr & b3 & E3 & Dr & Or & _). injection E3 as <-.
      inversion Oc as [| |bc| | | | | | |]; subst wc. assert (Di : den tm (T_ite s0 y r) (if bc then wx else wr)) by (cbn; exists bc, wx, wr; auto).
      split; [eapply total_true; eauto; destruct bc; auto|]. intros d s Rd X.
      assert (V1 : forall q, ssem d c (Some (SBool q)) -> bc = q) by (intros q Q; destruct (rep_some _ _ _ _ _ _ (Rc _ _ Rd Q) Dc) as [_ Q1]; cbn in Q1; congruence).
      inversion X; subst; match goal with A : ssem d c _ |- _ => apply V1 in A; subst bc end.
      * match goal with A : ssem d x _ |- _ => destruct (rep_some _ _ _ _ _ _ (Rx _ _ Rd A) Dx) as [St1 W1] end. eapply rep_true; eauto.
      * match goal with A : ssem d (ECond _ _ _) _ |- _ => destruct (rep_some _ _ _ _ _ _ (Ra _ _ Rd A) Dr) as [St1 W1] end. eapply rep_true; eauto.
  - discriminate.
Qed.
End FUN.

(** A model of the solver that describes the objects. *)
Record faithful (G : types) (W : world) (junk : ty -> sv) (M : model) : Prop := {
  f_wf : wf_types G;
  f_ww : wt_world G W;
  f_rec : forall r, NoDup (map c_name (all_components G r));
  f_tup : forall u ut, nth_error (tups G) u = Some ut -> NoDup (map c_name (u_comps ut));
  f_apart : distinct_objects W;
  f_junk : forall a, usable G a -> of_sort G true a (junk a);
  f_usable : forall u ut c, tup G u = Some ut -> In c (u_comps ut) -> usable G (c_typ c);
  f_match : forall p s r, w_match W p s = Some r -> m_match M s p = r;
  f_record : forall r z c, In c (all_components G r) -> has_field G (c_name c) (c_typ c) (c_opt c) (m_deref M (F_record r) z);
  f_union : forall ms z k info a, assoc k (field_map G ms) = Some info -> fi_typ info = Some a -> has_field G k a (has_valid info) (m_deref M (F_union ms) z);
  f_nth : forall el xs z, usable G el -> of_sort G true el (m_nth M el xs z);
  f_rec_data : forall r o ob c, nth_error (w_objs W) o = Some ob -> fits_record G ob r -> In c (all_components G r) ->
    exists fs, m_deref M (F_record r) (Z.of_nat o) = VRec fs /\
      stored_as G W junk (c_opt c) (c_typ c) (option_map snd (assoc (c_name c) (o_fields ob))) fs (c_name c);
  f_union_data : forall ms o ob k info a, nth_error (w_objs W) o = Some ob -> fits_union G ob ms ->
    assoc k (field_map G ms) = Some info -> fi_typ info = Some a -> coherent G ms k a ->
    exists fs, m_deref M (F_union ms) (Z.of_nat o) = VRec fs /\
      stored_as G W junk (has_valid info) a (option_map snd (assoc k (o_fields ob))) fs k;
  f_own : forall r c, In c (own_components G r) -> In c (all_components G r)
}.
Lemma faithful_fun G W junk M : faithful G W junk M -> forall e, fun_ok G W junk M e.
Proof. intros []. intros. eapply fun_all; eauto. Qed.
Lemma faithful_static G W junk M : faithful G W junk M -> forall S d f s, wt G W true S f -> vplain f -> scope_ok G W S d -> ssem W d f (Some s) -> static_as W f s.
Proof. intros []. intros. eapply static_value; eauto. Qed.
Lemma faithful_field G W junk M : faithful G W junk M -> forall S l c p un uv x v tm a w, wt G W true S (EField l c p un uv) -> e_typ p = Some a ->
  field_access G c (Some a) x = Ok v -> sden M tm x w -> of_sort G false a w ->
  total G M tm (Some (c_typ c)) v /\
  forall d s, ssem W d p (Some s) -> st G W false a s -> w = enc G junk a s ->
    exists s', ssem W d (EField l c p un uv) s' /\ rep G W junk M tm (Some (c_typ c)) v s'.
Proof. intros []. intros. eapply field_ok; eauto. Qed.
