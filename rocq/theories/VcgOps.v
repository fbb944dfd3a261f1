(** Operators: the terms that Vcg.v builds mean what the manual says. *)
From Coq Require Import Relations Qcanon Qabs Qpower.
From Verif Require Import Base Lexer PyText MathModel MathProofs Ast Eval TypesProofs Typing Soundness EvalSpec EvalSpecProofs EvalCorrect SemEval Vcg VcgSem VcgEnc.
Open Scope Z_scope.

Lemma sv_dec : forall x y : sv, {x = y} + {x <> y}.
Proof.
  fix IH 1. intros [b|z|q|s|e n|xs|fs] [b'|z'|q'|s'|e' n'|ys|gs]; try (right; discriminate).
  - destruct (bool_dec b b'); [left|right]; congruence.
  - destruct (Z.eq_dec z z'); [left|right]; congruence.
  - destruct (Qc_eq_dec q q'); [left|right]; congruence.
  - destruct (text_eq_dec s s'); [left|right]; congruence.
  - destruct (Nat.eq_dec e e'); [|right; congruence]. destruct (text_eq_dec n n'); [left|right]; congruence.
  - assert (D : {xs = ys} + {xs <> ys}); [|destruct D; [left|right]; congruence].
    revert xs ys. fix IHl 1. intros [|x xs] [|y ys]; try (right; discriminate); [left; reflexivity|].
    destruct (IH x y); [|right; congruence]. destruct (IHl xs ys); [left|right]; congruence.
  - assert (D : {fs = gs} + {fs <> gs}); [|destruct D; [left|right]; congruence].
    revert fs gs. fix IHl 1. intros [|[k [x o]] xs] [|[k' [y o']] ys]; try (right; discriminate); [left; reflexivity|].
    destruct (text_eq_dec k k'); [|right; congruence]. destruct (IH x y); [|right; congruence].
    assert ({o = o'} + {o <> o'}) as [|] by (decide equality; apply bool_dec); [|right; congruence].
    destruct (IHl xs ys); [left|right]; congruence.
Qed.
Lemma eq_bool (x y : sv) : exists r : bool, r = true <-> x = y.
Proof. destruct (sv_dec x y); [exists true|exists false]; intuition congruence. Qed.
Lemma in_bool (y : sv) xs : exists r : bool, r = true <-> In y xs.
Proof. destruct (in_dec sv_dec y xs); [exists true|exists false]; intuition congruence. Qed.
Lemma cmp_bool op p q : exists r : bool, r = true <-> cmp_holds op p q.
Proof.
  assert (Y : {cmp_holds op p q} + {~ cmp_holds op p q}).
  { destruct op; cbn.
    - apply Qeq_dec.
    - destruct (Qlt_le_dec p q); [left|right]; auto. apply Qle_not_lt; auto.
    - destruct (Qlt_le_dec q p); [right|left]; auto. apply Qlt_not_le; auto.
    - destruct (Qlt_le_dec q p); [left|right]; auto. apply Qle_not_lt; auto.
    - destruct (Qlt_le_dec p q); [right|left]; auto. apply Qlt_not_le; auto. }
  destruct Y; [exists true|exists false]; intuition congruence.
Qed.
Lemma strpred_bool op x y : exists r : bool, r = true <-> strpred_holds op x y.
Proof.
  destruct op; cbn.
  - exists (is_substring y x). apply substring_spec.
  - exists (starts_with x y). apply LexerValues.starts_with_spec.
  - exists (starts_with (rev x) (rev y)). rewrite LexerValues.starts_with_spec. split.
    + intros (q & E). exists (rev q). rewrite <- (rev_involutive y), E, rev_app_distr, rev_involutive. auto.
    + intros (p & ->). exists (rev p). apply rev_app_distr.
Qed.

(** Conversions change the type. *)
Definition conv_at (e : expr) : Prop :=
  match e with
  | EUnary _ _ U_toint a => e_typ a = Some TDec
  | EUnary _ _ U_todec a => e_typ a = Some TInt
  | _ => True
  end.

Ltac in_cases := repeat match goal with
  | H : In _ [_] |- _ => destruct H as [H|[]]
  | H : In _ (_ :: _) |- _ => destruct H as [H|H] end.
Ltac settle := repeat match goal with
  | H : (_, _) = (_, _) |- _ => injection H as; subst
  | H : Some _ = Some _ |- _ => injection H as; subst
  | H : VInt _ = VInt _ |- _ => injection H as; subst
  | H : VBool _ = VBool _ |- _ => injection H as; subst
  | H : VStr _ = VStr _ |- _ => injection H as; subst
  end.

Ltac sorted := first [apply so_int|apply so_real|apply so_bool|apply so_str|apply so_markup].
Ltac typed := first [apply st_int|apply st_dec|apply st_bool|apply st_str|apply st_markup].
Section OPS.
Variable G : types.
Variable W : world.
Variable junk : ty -> sv.
Variable M : model.
Hypothesis junk_ok : forall a, usable G a -> of_sort G true a (junk a).
Hypothesis tup_usable : forall u ut c, tup G u = Some ut -> In c (u_comps ut) -> usable G (c_typ c).
Hypothesis names_tup : forall u ut, nth_error (tups G) u = Some ut -> NoDup (map c_name (u_comps ut)).
Hypothesis match_ok : forall p s r, w_match W p s = Some r -> m_match M s p = r.

Notation st := (st G W false).
Notation enc := (enc G junk).
Notation den := (sden M).
Notation srt := (of_sort G false).

Lemma real_of q : (this (Q2Qc q) == q)%Q.
Proof. apply Qred_correct. Qed.

Lemma unary_ok S l b op e x y tm a w : wt G W true S (EUnary l b op e) -> conv_at (EUnary l b op e) -> e_typ e = Some a ->
  unary_term op (Some a) x = Ok y -> den tm x w -> srt a w ->
  exists b' w', b = Some b' /\ den tm y w' /\ srt b' w' /\
    (forall s s', st a s -> w = enc a s -> op_unary op s s' -> st b' s' /\ w' = enc b' s').
Proof.
  intros T C E U D O. inversion T; subst; in_cases; subst; settle;
    match goal with H : e_typ e = Some _ |- _ => rewrite H in E; injection E as <- end;
    inversion O; subst; cbn in U; try discriminate; injection U as <-; cbn in C; try congruence;
    (eexists; eexists; split; [reflexivity|]; split; [cbn; eauto using round_nearest_away_spec; fail|]; split; [sorted|]);
    try (intros s1 s2 St Ew Ou; inversion St; subst; inversion Ou; subst; cbn in Ew |- *; try discriminate; injection Ew as ->; split; [typed|];
         auto; try (f_equal; rewrite ?map_length; auto; fail); fail).
  all: intros s1 s2 St Ew Ou; inversion St; subst; inversion Ou; subst; cbn in Ew; injection Ew as ->; (split; [typed|]); cbn.
  1,2: apply f_equal; apply Q2Qc_eq_iff; rewrite Qred_correct; reflexivity.
  f_equal. eapply nearest_away_unique; [apply round_nearest_away_spec|].
  match goal with H : nearest_away _ _ |- _ => eapply nearest_away_comp; [|exact H] end. cbn; rewrite Qred_correct. reflexivity.
Qed.

Lemma power_den_int x z tm n : den tm x (VInt z) -> den tm (power_term false x n) (VInt (z ^ Z.of_nat (Datatypes.S n))).
Proof.
  intros D. induction n as [|n IH]; cbn [power_term].
  - replace (z ^ Z.of_nat 1) with z; auto. cbn. lia.
  - cbn [sden]. do 3 eexists. split; [exact IH|]. split; [exact D|]. split; [reflexivity|]. f_equal.
    rewrite (Nat2Z.inj_succ (Datatypes.S n)), Z.pow_succ_r by lia. lia.
Qed.
Lemma power_den_real x q tm n : den tm x (VReal q) -> den tm (power_term true x n) (VReal (Q2Qc (Qpower (this q) (Z.of_nat (Datatypes.S n))))).
Proof.
  intros D. induction n as [|n IH]; cbn [power_term].
  - replace (Q2Qc _) with q; auto. apply Qc_is_canon. cbn. rewrite Qred_correct. reflexivity.
  - cbn [sden]. do 3 eexists. split; [exact IH|]. split; [exact D|]. split; [reflexivity|]. f_equal.
    apply Q2Qc_eq_iff. rewrite real_of. change (Z.of_nat (Datatypes.S (Datatypes.S n))) with (Z.pos (Pos.succ (Pos.of_succ_nat n))).
    change (Z.of_nat (Datatypes.S n)) with (Z.pos (Pos.of_succ_nat n)). cbn [Qpower]. rewrite <- Pos.add_1_r, Qpower_plus_positive. reflexivity.
Qed.

Definition static_as (f : expr) (s : sval) : Prop := forall v, evaluate W None f = Ok v -> oden W v (Some s).

Lemma binary_ok S l b op e f x y z tm a a' w w' : wt G W true S (EBinary l b op e f) -> plain_at (EBinary l b op e f) ->
  strict_op op -> e_typ e = Some a -> e_typ f = Some a' -> binary_term W l op (Some a) f x y = Ok z ->
  den tm x w -> srt a w -> den tm y w' -> srt a' w' ->
  (op = B_index -> forall i lo hi el, a = TArr i lo hi el -> exists xs n, w = VSeq xs /\ w' = VInt n /\ 0 <= n < Z.of_nat (List.length xs)) ->
  (In op [B_div; B_rem] -> w' <> VInt 0 /\ w' <> VReal (Q2Qc 0)) ->
  exists b' wz, b = Some b' /\ den tm z wz /\ srt b' wz /\
    (forall s s' r, st a s -> w = enc a s -> st a' s' -> w' = enc a' s' -> static_as f s' -> op_binary W (Some a) op s s' r ->
       st b' r /\ wz = enc b' r).
Proof.
  intros T P So E E' B D O D' O' Hi Hd.
  inversion T; subst; in_cases; subst; try (exfalso; apply So; cbn; tauto);
    match goal with H : e_typ e = Some ?c |- _ => (tryif constr_eq H E then fail else (rewrite H in E; injection E as E; subst a)) end;
    match goal with H : e_typ f = Some ?c |- _ => (tryif constr_eq H E' then fail else (rewrite H in E'; injection E' as E'; subst a')) end;
  try match type of B with binary_term _ _ ?op _ _ _ _ = _ =>
    match op with
    | B_regex => fail 1 | B_pow => fail 1 | B_index => fail 1 | B_arrcontains => fail 1
    | _ => cbn in B; try discriminate; injection B as <-; inversion O; subst; inversion O'; subst
    end end;
  try match goal with |- context [T_cmp ?c x y] =>
    match goal with D : den tm x ?v, D' : den tm y ?v' |- _ =>
      let p := eval cbn in (num_sv v) in let q := eval cbn in (num_sv v') in
      match p with Some ?p' => match q with Some ?q' =>
        destruct (cmp_bool c p' q') as (rr & Hr);
        exists TBool, (VBool rr); split; [reflexivity|]; split; [exists v, v', p', q', rr; auto 10|]; split; [sorted|];
        intros s1 s2 r1 St1 Ew1 St2 Ew2 Sa Ob; inversion St1; subst; inversion St2; subst; inversion Ob; subst; cbn in Ew1, Ew2; injection Ew1 as ->; injection Ew2 as ->;
        split; [typed|]; cbn; apply f_equal; 
        match goal with A : number _ _, A' : number _ _ |- _ => inversion A; subst; inversion A'; subst end;
        match goal with A : _ = true <-> ordering _ _ _ |- _ => eapply bool_iff; [exact Hr|exact A|]; cbn; try rewrite !Qred_correct; reflexivity end
      end end end end;
  try match goal with |- context [T_strpred ?c ?x ?y] =>
    match goal with D : den tm x (VStr ?v), D' : den tm y (VStr ?v') |- _ =>
        destruct (strpred_bool c v v') as (rr & Hr);
        exists TBool, (VBool rr); split; [reflexivity|]; split; [exists v, v', rr; auto 10|]; split; [sorted|];
        intros s1 s2 r1 St1 Ew1 St2 Ew2 Sa Ob; inversion St1; subst; inversion St2; subst; inversion Ob; subst; in_cases; try discriminate; cbn in Ew1, Ew2; injection Ew1 as ->; injection Ew2 as ->;
        split; [typed|]; cbn; apply f_equal; 
        match goal with A : _ = true <-> ex _ |- _ => eapply bool_iff; [exact Hr|exact A|]; reflexivity end
      end end;
  try match goal with |- context [T_concat ?x ?y] =>
        eexists; eexists; split; [reflexivity|]; split; [cbn; eauto; fail|]; split; [sorted|];
        intros s1 s2 r1 St1 Ew1 St2 Ew2 Sa Ob; inversion St1; subst; inversion St2; subst; inversion Ob; subst; in_cases; try discriminate; cbn in Ew1, Ew2; injection Ew1 as ->; injection Ew2 as ->;
        split; [typed|]; reflexivity end;
  try match goal with |- context [T_xor ?x ?y] =>
        eexists; eexists; split; [reflexivity|]; split; [cbn; eauto; fail|]; split; [sorted|];
        intros s1 s2 r1 St1 Ew1 St2 Ew2 Sa Ob; inversion St1; subst; inversion St2; subst; inversion Ob; subst; in_cases; try discriminate; cbn in Ew1, Ew2; injection Ew1 as ->; injection Ew2 as ->;
        split; [typed|]; reflexivity end;
  try match goal with |- context [T_num2 ?k ?o ?x ?y] =>
        match o with N_div => fail 1 | N_rem => fail 1 | _ => idtac end;
        eexists; eexists; split; [reflexivity|]; split; [cbn; eauto 10; fail|]; split; [sorted|];
        intros s1 s2 r1 St1 Ew1 St2 Ew2 Sa Ob; inversion St1; subst; inversion St2; subst; inversion Ob; subst; in_cases; try discriminate; cbn in Ew1, Ew2; injection Ew1 as ->; injection Ew2 as ->;
        split; [typed|]; cbn; try reflexivity; apply f_equal; apply Q2Qc_eq_iff; rewrite !Qred_correct; reflexivity end.
  (* regular expressions *)
  1,2,3,4: cbn in B; match goal with H : evaluate _ None _ = Ok _ |- _ => rewrite H in B; rename H into Es end; cbn in B; injection B as <-;
    inversion O; subst; eexists; eexists; (split; [reflexivity|]); (split; [cbn; eauto; fail|]); (split; [sorted|]);
    intros s1 s2 r1 St1 Ew1 St2 Ew2 Sa Ob; inversion Ob; subst; in_cases; try discriminate; cbn in Ew1; injection Ew1 as ->;
    apply Sa in Es; cbn in Es; subst; (split; [typed|]); cbn; f_equal; apply match_ok; auto.
  - cbn in P. match goal with H : e_typ f = _, H' : e_typ e = _ |- _ => rewrite H in P; rewrite H' in P; injection P as -> end.
    cbn in B. injection B as <-. inversion O'; subst. destruct (in_bool w xs) as (rr & Hr).
    exists TBool, (VBool rr). split; [reflexivity|]. split; [exists xs, w, rr; auto|]. split; [sorted|].
    intros s1 s2 r1 St1 Ew1 St2 Ew2 Sa Ob. inversion Ob; subst; in_cases; try discriminate. cbn in Ew2. injection Ew2 as ->. split; [typed|]. cbn. apply f_equal.
    match goal with A : _ = true <-> ex _ |- _ => eapply bool_iff; [exact Hr|exact A|] end. rewrite in_map_iff. inversion St2; subst.
    match goal with F : Forall _ ys |- _ => rewrite Forall_forall in F; rename F into Fy end. split.
    + intros (y0 & Ey & Iy). exists y0. split; auto. eapply enc_inj; eauto.
    + intros (y0 & Iy & Sy). exists y0. split; auto. apply enc_same. auto.
  - destruct Hd as [Hd _]; [cbn; auto|]. assert (Nz : z0 <> 0) by congruence.
    exists TInt, (VInt (z / z0)). split; [reflexivity|]. split.
    { exists z, z0, (z / z0). cbn. destruct (Z.eqb_spec z0 0); [contradiction|]. auto. }
    split; [sorted|].
    intros s1 s2 r1 St1 Ew1 St2 Ew2 Sa Ob; inversion Ob; subst; in_cases; try discriminate; cbn in Ew1, Ew2; try discriminate; injection Ew1 as ->; injection Ew2 as ->.
    split; [typed|]. cbn. apply f_equal. eapply is_floor_quotient_unique; [|eassumption].
    match goal with |- is_floor_quotient ?x ?y _ => destruct (int_divide_spec x y Nz) as (d0 & Ed & Fd) end. unfold int_divide in Ed. destruct (Z.eqb_spec y0 0); [contradiction|]. subst. injection Ed as <-. exact Fd.
  - destruct Hd as [_ Hd]; [cbn; auto|]. assert (Nz : ~ (this q0 == 0)%Q).
    { intros E0. apply Hd. f_equal. apply Qc_is_canon. cbn. exact E0. }
    exists TDec, (VReal (Q2Qc (this q / this q0))). split; [reflexivity|]. split.
    { exists q, q0. eexists. split; eauto. split; eauto. cbn [real2]. destruct (Qeq_bool q0 0) eqn:Q0; [apply Qeq_bool_eq in Q0; contradiction|]. auto. }
    split; [sorted|].
    intros s1 s2 r1 St1 Ew1 St2 Ew2 Sa Ob; inversion Ob; subst; in_cases; try discriminate; cbn in Ew1, Ew2; try discriminate; injection Ew1 as ->; injection Ew2 as ->.
    split; [typed|]. cbn. apply f_equal. apply Q2Qc_eq_iff. rewrite !Qred_correct. reflexivity.
  - destruct Hd as [Hd _]; [cbn; auto|]. assert (Nz : z0 <> 0) by congruence.
    exists TInt, (VInt (Z.rem z z0)). split; [reflexivity|]. split.
    { exists z, z0, (Z.rem z z0). cbn. destruct (Z.eqb_spec z0 0); [contradiction|]. auto. }
    split; [sorted|].
    intros s1 s2 r1 St1 Ew1 St2 Ew2 Sa Ob; inversion Ob; subst; in_cases; try discriminate; cbn in Ew1, Ew2; try discriminate; injection Ew1 as ->; injection Ew2 as ->.
    split; [typed|]. cbn. apply f_equal. eapply is_remainder_unique; [|eassumption].
    match goal with |- is_remainder _ ?x ?y _ => split; [exists (Z.quot x y); apply Z.quot_rem'|]; split; [apply Z.rem_bound_abs; exact Nz|];
      destruct (Z.eq_dec (Z.rem x y) 0); [left; assumption|right; apply Z.rem_sign_nz; assumption] end.
  - inversion O; subst. cbn in B. match goal with H : evaluate W None f = Ok _ |- _ => rewrite H in B; rename H into Es end. cbn in B.
    destruct (Z.ltb_spec k 0); [lia|]. injection B as <-. exists TInt, (VInt (z0 ^ k)). split; [reflexivity|]. split.
    { destruct (Z.eqb_spec k 0) as [->|]; [reflexivity|]. replace k with (Z.of_nat (Datatypes.S (Z.to_nat (k - 1)))) at 2 by lia. apply power_den_int. auto. }
    split; [sorted|].
    intros s1 s2 r1 St1 Ew1 St2 Ew2 Sa Ob; inversion Ob; subst; in_cases; try discriminate; cbn in Ew1; try discriminate; injection Ew1 as ->.
    specialize (Sa _ Es). cbn in Sa. subst. split; [typed|]. reflexivity.
  - inversion O; subst. cbn in B. match goal with H : evaluate W None f = Ok _ |- _ => rewrite H in B; rename H into Es end. cbn in B.
    destruct (Z.ltb_spec k 0); [lia|]. injection B as <-. exists TDec, (VReal (Q2Qc (Qpower (this q) k))). split; [reflexivity|]. split.
    { destruct (Z.eqb_spec k 0) as [->|]; [reflexivity|]. replace k with (Z.of_nat (Datatypes.S (Z.to_nat (k - 1)))) at 2 by lia. apply power_den_real. auto. }
    split; [sorted|].
    intros s1 s2 r1 St1 Ew1 St2 Ew2 Sa Ob; inversion Ob; subst; in_cases; try discriminate; cbn in Ew1; try discriminate; injection Ew1 as ->.
    specialize (Sa _ Es). cbn in Sa. subst. split; [typed|]. cbn. apply f_equal. apply Q2Qc_eq_iff. apply Qpower_comp. apply Qred_correct.
  - cbn in B. injection B as <-. destruct (Hi eq_refl _ _ _ _ eq_refl) as (xs & n & -> & -> & Ln).
    exists el, (nth (Z.to_nat n) xs (VBool false)). split; [reflexivity|]. split.
    { exists xs, n. split; auto. split; auto. destruct (Z.leb_spec 0 n), (Z.ltb_spec n (Z.of_nat (List.length xs))); try lia. reflexivity. }
    split.
    { inversion O; subst. match goal with F : Forall _ xs |- _ => rewrite Forall_forall in F; apply F end. apply nth_In. lia. }
    intros s1 s2 r1 St1 Ew1 St2 Ew2 Sa Ob. inversion Ob; subst; in_cases; try discriminate. cbn in Ew1, Ew2. injection Ew1 as ->. injection Ew2 as ->.
    match goal with H : nth_error _ _ = Some r1 |- _ => rename H into Nr end. inversion St1; subst.
    split.
    + match goal with F : Forall _ xs0 |- _ => rewrite Forall_forall in F; apply F end. eapply nth_error_In; eauto.
    + apply nth_error_nth. rewrite nth_error_map, Nr. reflexivity.
Qed.

(** Goals of operators *)
Definition in_range (a : ty) (w w' : sv) : Prop := forall i lo hi el, a = TArr i lo hi el ->
  exists xs n, w = VSeq xs /\ w' = VInt n /\ 0 <= n < Z.of_nat (List.length xs).
Definition nonzero (w : sv) : Prop := w <> VInt 0 /\ w <> VReal (Q2Qc 0).
Lemma goals_den S l b op e f x y tm a a' w w' : wt G W true S (EBinary l b op e f) ->
  strict_op op -> e_typ e = Some a -> e_typ f = Some a' ->
  den tm x w -> srt a w -> den tm y w' -> srt a' w' ->
  (forall k g, In (k, g) (op_goals op (Some a) x y) -> exists r, den tm g (VBool r)) /\
  ((forall k g, In (k, g) (op_goals op (Some a) x y) -> den tm g (VBool true)) ->
   (op = B_index -> in_range a w w') /\ (In op [B_div; B_rem] -> nonzero w')).
Proof.
  intros T So E E' D O D' O'.
  assert (Z0 : forall k, exists r, den tm (T_not (T_cmp C_eq y (T_lit k))) (VBool r) /\ (r = true -> w' <> lit_sv k)).
  { intros k. destruct (eq_bool w' (lit_sv k)) as (r & R). exists (negb r). split.
    - cbn. exists r. split; auto. exists w', (lit_sv k), r. auto.
    - intros Er Ew. apply R in Ew. subst r. discriminate. }
  inversion T; subst; in_cases; subst; try (exfalso; apply So; cbn; tauto);
    match goal with H : e_typ e = Some ?c |- _ => (tryif constr_eq H E then fail else (rewrite H in E; injection E as E; subst a)) end;
    match goal with H : e_typ f = Some ?c |- _ => (tryif constr_eq H E' then fail else (rewrite H in E'; injection E' as E'; subst a')) end;
    try (split; [cbn; contradiction|intros _; split; [discriminate|cbn; intuition discriminate]]; fail).
  - destruct (Z0 (LInt 0)) as (r & R & N). inversion O'; subst. split.
    + intros k g [Eg|[]]. injection Eg as <- <-. eauto.
    + intros H. split; [discriminate|]. intros _. specialize (H _ _ (or_introl eq_refl)). rewrite (sden_bool _ _ _ _ _ R H) in N. split; [apply N; auto|discriminate].
  - destruct (Z0 (LDec 0)) as (r & R & N). inversion O'; subst. split.
    + intros k g [Eg|[]]. injection Eg as <- <-. eauto.
    + intros H. split; [discriminate|]. intros _. specialize (H _ _ (or_introl eq_refl)). rewrite (sden_bool _ _ _ _ _ R H) in N. split; [discriminate|apply N; auto].
  - destruct (Z0 (LInt 0)) as (r & R & N). inversion O'; subst. split.
    + intros k g [Eg|[]]. injection Eg as <- <-. eauto.
    + intros H. split; [discriminate|]. intros _. specialize (H _ _ (or_introl eq_refl)). rewrite (sden_bool _ _ _ _ _ R H) in N. split; [apply N; auto|discriminate].
  - inversion O'; subst. inversion O; subst. split.
    + intros k g [Eg|[Eg|[]]]; injection Eg as <- <-.
      * destruct (cmp_bool C_geq (inject_Z z) (inject_Z 0)) as (r & R). exists r. exists (VInt z), (VInt 0), (inject_Z z), (inject_Z 0), r. split; [exact D'|]. split; [reflexivity|]. auto.
      * destruct (cmp_bool C_lt (inject_Z z) (inject_Z (Z.of_nat (List.length xs)))) as (r & R). exists r.
        exists (VInt z), (VInt (Z.of_nat (List.length xs))), (inject_Z z), (inject_Z (Z.of_nat (List.length xs))), r. split; [exact D'|]. split; [exists xs; auto|]. auto.
    + intros H. split; [|cbn; intuition discriminate]. intros _ i0 lo0 hi0 el0 Ea. exists xs, z. split; auto. split; auto.
      pose proof (H _ _ (or_introl eq_refl)) as H1. pose proof (H _ _ (or_intror (or_introl eq_refl))) as H2. clear H.
      destruct H1 as (u & v & p & q & r & Hu & Hv & Np & Nq & Er & R). injection Er as <-. cbn in Hv. subst v. rewrite (sden_fun _ _ _ _ _ Hu D') in Np. cbn in Np, Nq. injection Np as <-. injection Nq as <-.
      destruct H2 as (u' & v' & p' & q' & r' & Hu' & Hv' & Np' & Nq' & Er' & R'). injection Er' as <-. rewrite (sden_fun _ _ _ _ _ Hu' D') in Np'. cbn in Np'. injection Np' as <-.
      destruct Hv' as (xs' & Dx & ->). pose proof (sden_fun _ _ _ _ _ Dx D) as Ex. injection Ex as ->. cbn in Nq'. injection Nq' as <-.
      destruct R as [R _], R' as [R' _]. specialize (R eq_refl). specialize (R' eq_refl). cbn in R, R'. rewrite <- Zle_Qle in R. rewrite <- Zlt_Qlt in R'. lia.
Qed.

(** Strict operators have a value if their goals hold. *)
Lemma binary_value S l b op e f a a' s s' : wt G W true S (EBinary l b op e f) -> plain_at (EBinary l b op e f) ->
  strict_op op -> e_typ e = Some a -> e_typ f = Some a' -> st a s -> st a' s' -> static_as f s' ->
  (op = B_index -> in_range a (enc a s) (enc a' s')) -> (In op [B_div; B_rem] -> nonzero (enc a' s')) ->
  exists r, op_binary W (Some a) op s s' r.
Proof.
  intros T P So E E' St St' Sa Hi Hd.
  inversion T; subst; in_cases; subst; try (exfalso; apply So; cbn; tauto);
    match goal with H : e_typ e = Some ?c |- _ => (tryif constr_eq H E then fail else (rewrite H in E; injection E as E; subst a)) end;
    match goal with H : e_typ f = Some ?c |- _ => (tryif constr_eq H E' then fail else (rewrite H in E'; injection E' as E'; subst a')) end;
    try (inversion St; subst; inversion St'; subst; eexists; constructor; fail);
    try match goal with T : wt _ _ _ _ (EBinary _ _ ?op _ _) |- _ =>
      let c := match op with B_lt => C_lt | B_leq => C_leq | B_gt => C_gt | B_geq => C_geq end in
      inversion St; subst; inversion St'; subst;
      match goal with |- context [op_binary _ _ _ ?x ?y] =>
        let q1 := match x with SInt ?z => constr:(inject_Z z) | SDec ?q => q end in
        let q2 := match y with SInt ?z => constr:(inject_Z z) | SDec ?q => q end in
        destruct (cmp_bool c q1 q2) as (r & R); exists (SBool r); eapply ob_order; [cbn; tauto|constructor|constructor|exact R] end end;
    try match goal with T : wt _ _ _ _ (EBinary _ _ ?op _ _) |- _ =>
      let c := match op with B_contains => P_contains | B_starts => P_prefixof | B_ends => P_suffixof end in
      inversion St; subst; inversion St'; subst;
      match goal with |- context [op_binary _ _ _ (SStr ?x) (SStr ?y)] =>
        destruct (strpred_bool c y x) as (r & R); exists (SBool r); constructor; exact R end end.
  1,2,3,4: inversion St; subst; match goal with H : evaluate _ None _ = Ok _ |- _ => apply Sa in H; cbn in H end; destruct s'; try contradiction; subst;
    match goal with H : forall x, w_match _ _ x <> None |- exists r, op_binary _ _ _ (SStr ?x) _ _ => specialize (H x); destruct (w_match W _ x) eqn:Wm in H end; [eexists; constructor; eassumption|congruence].
  - cbn in P. match goal with H : e_typ f = _, H' : e_typ e = _ |- _ => rewrite H in P; rewrite H' in P; injection P as -> end.
    inversion St'; subst. destruct (in_bool (enc el s) (map (enc el) xs)) as (r & R). exists (SBool r). constructor. rewrite R, in_map_iff.
    match goal with F : Forall _ xs |- _ => rewrite Forall_forall in F; rename F into Fy end. split.
    + intros (y0 & Ey & Iy). exists y0. split; auto. eapply enc_inj; eauto.
    + intros (y0 & Iy & Sy). exists y0. split; auto. apply enc_same. auto.
  - inversion St; subst; inversion St'; subst. destruct Hd as [Hd _]; [cbn; auto|]. cbn in Hd. assert (Nz : z0 <> 0) by congruence.
    destruct (int_divide_spec z z0 Nz) as (r & _ & R). exists (SInt r). constructor; auto.
  - inversion St; subst; inversion St'; subst. destruct Hd as [_ Hd]; [cbn; auto|]. cbn in Hd. eexists. constructor.
    intros Q0. apply Hd. f_equal. apply Q2Qc_eq_iff. auto.
  - inversion St; subst; inversion St'; subst. destruct Hd as [Hd _]; [cbn; auto|]. cbn in Hd. assert (Nz : z0 <> 0) by congruence.
    destruct (remainder_spec z z0 Nz) as (r & _ & R). exists (SInt r). constructor; auto.
  - match goal with H : evaluate W None f = Ok _ |- _ => apply Sa in H; cbn in H end. destruct s'; try contradiction; subst. inversion St; subst. eexists. constructor. auto.
  - match goal with H : evaluate W None f = Ok _ |- _ => apply Sa in H; cbn in H end. destruct s'; try contradiction; subst. inversion St; subst. eexists. constructor. auto.
  - destruct (Hi eq_refl _ _ _ _ eq_refl) as (xs & n & Ex & En & Ln). inversion St; subst. inversion St'; subst. cbn in Ex, En. injection Ex as <-. injection En as ->.
    rewrite map_length in Ln. destruct (nth_error xs0 (Z.to_nat n)) as [r|] eqn:Nr; [|apply nth_error_None in Nr; lia].
    exists r. econstructor; eauto; [lia|]. intros h Eh. match goal with H : forall h, hi = Some h -> _ |- _ => specialize (H h Eh) end. lia.
Qed.
End OPS.
