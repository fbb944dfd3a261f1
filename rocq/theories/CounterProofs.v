(** Proofs about the rendering of counterexamples. *)
From Coq Require Import QArith Qreduction Znumtheory Lqa Lia ZifyBool ZifyNat ZifyN.
From Verif Require Import Base Lexer SymTab Ast Eval LexSpec LexerProps ValueSyntax ParserProofs Counter.
Open Scope Z_scope.

(** ** Integers *)
Lemma digit_char z : 0 <= z < 10 -> digit_val (Z.to_N (48 + z)) z /\ digit (Z.to_N (48 + z)).
Proof. intros H. split; [apply dv_09; lia|]. unfold digit. lia. Qed.
Lemma digits_steps_ok fuel : forall z, 0 <= z < 2 ^ Z.of_nat fuel -> (0 < fuel)%nat ->
  exists n, positional 10 (digits_steps fuel z) n z /\ digit_groups digit (digits_steps fuel z).
Proof.
  induction fuel as [|fuel IH]; intros z Hz F; [lia|]. cbn [digits_steps].
  pose proof (Z.mod_pos_bound z 10 ltac:(lia)) as M. destruct (digit_char (z mod 10) M) as [D D'].
  assert (One : positional 10 [Z.to_N (48 + z mod 10)] 1 (z mod 10)).
  { pose proof (pos_digit 10 _ _ [] 0 0 D ltac:(lia) (pos_nil 10)) as X. cbn in X. rewrite Z.mul_1_r, Z.add_0_r in X. exact X. }
  destruct (z <? 10) eqn:E.
  - cbn. rewrite Z.mod_small in * by lia. exists 1%nat. split; auto. apply dg_one; auto.
  - rewrite Nat2Z.inj_succ, Z.pow_succ_r in Hz by lia. assert (0 < fuel)%nat by (destruct fuel; cbn in Hz; lia).
    destruct (IH (z / 10)) as (n & P & Q); auto.
    { split; [apply Z.div_pos; lia|]. apply Z.div_lt_upper_bound; lia. }
    exists (n + 1)%nat. split.
    + pose proof (positional_app 10 _ _ _ _ _ _ ltac:(lia) P One) as X. replace (z / 10 * 10 ^ Z.of_nat 1 + z mod 10) with z in X; auto.
      change (Z.of_nat 1) with 1. rewrite Z.pow_1_r. pose proof (Z.div_mod z 10). lia.
    + clear - Q D'. induction Q; cbn; [apply dg_more; auto; apply dg_one; auto|apply dg_more; auto|apply dg_under; auto].
Qed.
Lemma str_nonneg_ok z : 0 <= z -> exists n, positional 10 (str_nonneg z) n z /\ digit_groups digit (str_nonneg z).
Proof.
  intros H. apply digits_steps_ok; [|lia]. split; auto. rewrite Nat2Z.inj_succ, Z2Nat.id by apply Z.log2_nonneg.
  destruct (Z.eq_dec z 0) as [->|N]; [cbn; lia|]. apply Z.log2_spec. lia.
Qed.
Lemma str_digit z : 0 <= z < 10 -> str_int z = [Z.to_N (48 + z)].
Proof.
  intros H. unfold str_int, str_nonneg. replace (z <? 0) with false by lia. cbn [digits_steps]. replace (z <? 10) with true by lia. cbn. rewrite Z.mod_small by lia. auto.
Qed.

(** ** Fractions *)
Lemma rel_prime_10 x n : x mod 2 <> 0 -> x mod 5 <> 0 -> 0 <= n -> rel_prime x (10 ^ n).
Proof.
  intros A B N. assert (R : rel_prime x 10).
  { change 10 with (2 * 5). apply rel_prime_mult; apply rel_prime_sym; apply prime_rel_prime; try exact prime_2.
    - intros D. apply A. apply Z.mod_divide; [lia|auto].
    - apply prime_intro; [lia|]. intros n' Hn. unfold rel_prime. apply Zgcd_1_rel_prime.
      assert (n' = 1 \/ n' = 2 \/ n' = 3 \/ n' = 4) as [->|[->|[->| ->]]] by lia; reflexivity.
    - intros D. apply B. apply Z.mod_divide; [lia|auto]. }
  revert n N. apply natlike_ind; [apply rel_prime_sym, rel_prime_1|]. intros n N IH. rewrite Z.pow_succ_r by auto. apply rel_prime_mult; auto.
Qed.
Lemma strip_ok fuel : forall x, 1 <= x < 2 ^ Z.of_nat fuel ->
  (strip fuel x = Ok true /\ (x | 10 ^ Z.of_nat fuel)) \/ (strip fuel x = Ok false /\ forall n, 0 <= n -> ~ (x | 10 ^ n)).
Proof.
  induction fuel as [|fuel IH]; intros x Hx; [cbn in Hx; lia|]. cbn [strip]. destruct (1 <? x) eqn:E.
  2:{ left. split; auto. replace x with 1 by lia. apply Z.divide_1_l. }
  rewrite Nat2Z.inj_succ, Z.pow_succ_r in Hx by lia.
  destruct (x mod 2 =? 0) eqn:E2; [|destruct (x mod 5 =? 0) eqn:E5].
  - pose proof (Z.div_mod x 2 ltac:(lia)) as D. destruct (IH (x / 2)) as [[S H]|[S H]]; [lia| |].
    + left. split; auto. rewrite Nat2Z.inj_succ, Z.pow_succ_r by lia. destruct H as [k H]. exists (5 * k). rewrite H. replace x with (2 * (x / 2)) at 2 by lia. ring.
    + right. split; auto. intros n N I. apply (H n N). eapply Z.divide_trans; [|exact I]. exists 2. lia.
  - pose proof (Z.div_mod x 5 ltac:(lia)) as D. destruct (IH (x / 5)) as [[S H]|[S H]]; [lia| |].
    + left. split; auto. rewrite Nat2Z.inj_succ, Z.pow_succ_r by lia. destruct H as [k H]. exists (2 * k). rewrite H. replace x with (5 * (x / 5)) at 2 by lia. ring.
    + right. split; auto. intros n N I. apply (H n N). eapply Z.divide_trans; [|exact I]. exists 5. lia.
  - right. split; auto. intros n N I. assert (R : rel_prime x (10 ^ n)) by (apply rel_prime_10; lia).
    destruct R as [_ _ R]. specialize (R x (Z.divide_refl x) I). apply Z.divide_1_r_nonneg in R; lia.
Qed.
Lemma fraction_digits_ok fuel : forall i j, 0 <= i < j -> (j | i * 10 ^ Z.of_nat fuel) ->
  exists r n v, fraction_digits fuel i j = Ok r /\ positional 10 r n v /\ i * 10 ^ Z.of_nat n = v * j /\ (0 < i -> digit_groups digit r).
Proof.
  induction fuel as [|fuel IH]; intros i j H D; cbn [fraction_digits]; destruct (0 <? i) eqn:E.
  - exfalso. cbn in D. rewrite Z.mul_1_r in D. apply Z.divide_pos_le in D; lia.
  - exists [], 0%nat, 0. repeat split; auto; [apply pos_nil|lia|lia].
  - pose proof (Z.mod_pos_bound (i * 10) j ltac:(lia)) as M. pose proof (Z.div_mod (i * 10) j ltac:(lia)) as Q.
    assert (B : 0 <= i * 10 / j < 10) by (split; [apply Z.div_pos; lia|apply Z.div_lt_upper_bound; lia]).
    destruct (IH (i * 10 mod j) j M) as (r & n & v & F & P & V & I).
    { rewrite Nat2Z.inj_succ, Z.pow_succ_r in D by lia. rewrite Z.mod_eq by lia. rewrite Z.mul_sub_distr_r. apply Z.divide_sub_r.
      - replace (i * 10 * 10 ^ Z.of_nat fuel) with (i * (10 * 10 ^ Z.of_nat fuel)) by ring. auto.
      - rewrite <- Z.mul_assoc. apply Z.divide_factor_l. }
    rewrite F. cbn [bind]. rewrite str_digit by auto. destruct (digit_char _ B) as [C C']. cbn [app].
    exists (Z.to_N (48 + i * 10 / j) :: r), (S n), (i * 10 / j * 10 ^ Z.of_nat n + v). repeat split; auto.
    + apply pos_digit; auto. lia.
    + rewrite Nat2Z.inj_succ, Z.pow_succ_r by lia. rewrite Z.mul_add_distr_r, <- V. 
      replace (i * (10 * 10 ^ Z.of_nat n)) with ((i * 10) * 10 ^ Z.of_nat n) by ring. rewrite Q at 1. ring.
    + intros _. destruct (Z.eq_dec (i * 10 mod j) 0) as [Z0|Z0].
      * rewrite Z0 in F. assert (r = []) as ->. { destruct fuel; cbn in F; congruence. } apply dg_one; auto.
      * apply dg_more; auto. apply I. lia.
  - exists [], 0%nat, 0. repeat split; auto; [apply pos_nil|lia|lia].
Qed.

(** A decimal literal and what it denotes. *)
Definition decimal_literal (s : text) (q : Q) : Prop :=
  exists r1 r2, s = r1 ++ t "." ++ r2 /\ digit_groups digit r1 /\ digit_groups digit r2 /\ dec_denotes s q.
(** A fraction with denominator [den] has finitely many decimal places. *)
Definition finite_decimal (den : Z) : Prop := exists n, 0 <= n /\ (den | 10 ^ n).
Definition minus_if (b : bool) : text := if b then t "-" else [].

Lemma steps_bound den : 1 <= den -> 1 <= den < 2 ^ Z.of_nat (steps_for den).
Proof.
  intros H. unfold steps_for. rewrite Nat2Z.inj_succ, Z2Nat.id by apply Z.log2_nonneg. split; auto. apply Z.log2_spec. lia.
Qed.
Lemma fraction_ok num den : 1 <= den ->
  (finite_decimal den /\ exists lit, fraction_to_decimal_string num den = Ok (minus_if (num <? 0) ++ lit) /\
     decimal_literal lit (inject_Z (Z.abs num) / inject_Z den)) \/
  (~ finite_decimal den /\ fraction_to_decimal_string num den = Ok (str_int num ++ t " / " ++ str_int den)).
Proof.
  intros H. pose proof (steps_bound den H) as B. unfold fraction_to_decimal_string. replace (1 <=? den) with true by lia. cbn [negb].
  assert (X : ((if 2 <? den then strip (steps_for den) den else Ok true) = Ok true /\ (den | 10 ^ Z.of_nat (steps_for den))) \/
              ((if 2 <? den then strip (steps_for den) den else Ok true) = Ok false /\ forall n, 0 <= n -> ~ (den | 10 ^ n))).
  { destruct (2 <? den) eqn:E; [apply strip_ok; auto|]. left. split; auto.
    assert (den = 1 \/ den = 2) as [->| ->] by lia; [apply Z.divide_1_l|]. exists 50. reflexivity. }
  destruct X as [[-> D]|[-> D]]; cbn [bind].
  2:{ right. split; auto. intros (n & N & I). exact (D n N I). }
  left. split; [exists (Z.of_nat (steps_for den)); split; auto; lia|].
  pose proof (Z.mod_pos_bound (Z.abs num) den ltac:(lia)) as M. pose proof (Z.div_mod (Z.abs num) den ltac:(lia)) as Q.
  assert (N0 : 0 <= Z.abs num / den) by (apply Z.div_pos; lia).
  assert (Int : str_int (Z.abs num / den) = str_nonneg (Z.abs num / den)) by (unfold str_int; replace (Z.abs num / den <? 0) with false by lia; auto).
  destruct (str_nonneg_ok _ N0) as (n1 & P1 & D1).
  assert (L : forall r n v, positional 10 r n v -> digit_groups digit r -> (Z.abs num mod den) * 10 ^ Z.of_nat n = v * den ->
    decimal_literal (str_nonneg (Z.abs num / den) ++ t "." ++ r) (inject_Z (Z.abs num) / inject_Z den)).
  { intros r n v P R V. exists (str_nonneg (Z.abs num / den)), r. repeat split; auto. econstructor; eauto.
    assert (T : 0 < 10 ^ Z.of_nat n) by (apply Z.pow_pos_nonneg; lia). set (p := 10 ^ Z.of_nat n) in *.
    assert (Hd : ~ (inject_Z den == 0)%Q) by (unfold Qeq; cbn; lia). assert (Hp : ~ (inject_Z p == 0)%Q) by (unfold Qeq; cbn; lia).
    assert (V' : (inject_Z (Z.abs num mod den) * inject_Z p == inject_Z v * inject_Z den)%Q) by (rewrite <- !inject_Z_mult, V; reflexivity).
    assert (Q' : (inject_Z (Z.abs num) == inject_Z den * inject_Z (Z.abs num / den) + inject_Z (Z.abs num mod den))%Q) by (rewrite <- inject_Z_mult, <- inject_Z_plus, <- Q; reflexivity).
    rewrite Q'. setoid_replace (inject_Z (Z.abs num mod den)) with (inject_Z v * inject_Z den / inject_Z p)%Q.
    - field. auto.
    - rewrite <- V'. field. auto. }
  destruct (0 <? Z.abs num mod den) eqn:E.
  - destruct (fraction_digits_ok (steps_for den) (Z.abs num mod den) den M) as (r & n & v & F & P & V & I).
    { eapply Z.divide_trans; [exact D|]. apply Z.divide_factor_r. }
    rewrite F. cbn [bind]. exists (str_nonneg (Z.abs num / den) ++ t "." ++ r). split; [|apply (L r n v); auto; apply I; lia].
    rewrite Int. destruct (num <? 0); auto.
  - cbn [bind]. exists (str_nonneg (Z.abs num / den) ++ t "." ++ t "0"). split.
    + rewrite Int. destruct (num <? 0); auto.
    + apply (L (t "0") 1%nat 0).
      * apply (pos_digit 10 48%N 0 [] 0 0); [apply (dv_09 0); lia|lia|apply pos_nil].
      * apply dg_one. unfold digit. cbn. lia.
      * lia.
Qed.
Lemma integer_ok z : exists lit, str_int z = minus_if (z <? 0) ++ lit /\ digit_groups digit lit /\ int_denotes lit (Z.abs z).
Proof.
  destruct (str_nonneg_ok (Z.abs z) (Z.abs_nonneg z)) as (n & P & D). exists (str_nonneg (Z.abs z)). unfold str_int. split; [|split; auto; eapply id_dec; eauto].
  destruct (z <? 0) eqn:E; cbn; [rewrite Z.abs_neq by lia|rewrite Z.abs_eq by lia]; auto.
Qed.
(** ** Every value is rendered *)
Section SHAPE.
Variable G : types.
Variable package_name : nat -> text.
Variable own : nat.
(** What the solver gives for a type. *)
Inductive shaped : ty -> sval -> Prop :=
| sh_int z : shaped TInt (S_int z)
| sh_frac q : shaped TDec (S_frac q)
| sh_other : shaped TDec S_other
| sh_bool b : shaped TBool (S_bool b)
| sh_str s : shaped TStr (S_text s)
| sh_markup s : shaped TMarkup (S_text s)
| sh_enum e en s : nth_error (enums G) e = Some en -> In s (en_lits en) -> shaped (TEnum e) (S_text s)
| sh_rec r z : rec G r <> None -> shaped (TRec r) (S_int z)
| sh_union i ms z : shaped (TUnion i ms) (S_int z)
| sh_arr i lo hi el vs : (forall v, In v vs -> shaped el v) -> shaped (TArr i lo hi el) (S_list vs)
| sh_tup u ut d : tup G u = Some ut ->
    (forall c, In c (u_comps ut) -> exists valid x, assoc (c_name c) d = Some (valid, x) /\ (c_opt c = false \/ valid = true -> shaped (c_typ c) x)) ->
    shaped (TTup u) (S_dict d).

(** nesting of tuple types *)
Definition depth (a : ty) : nat := match a with TTup u => S u | TArr _ _ _ (TTup u) => S (S u) | TArr _ _ _ _ => 1 | _ => 0 end.

Lemma parts_total show (cs : list component) : forall seps d parts,
  (forall c, In c cs -> exists valid x, assoc (c_name c) d = Some (valid, x) /\ (c_opt c = false \/ valid = true -> exists s, show (c_typ c) x = Ok s)) ->
  (parts <> [] \/ (forall c cs', cs = c :: cs' -> c_opt c = false)) ->
  exists ps, tuple_parts show (sequence_from cs seps) d parts = Ok ps.
Proof.
  induction cs as [|c cs IH]; intros seps d parts H P; cbn; [eauto|]. destruct (H c (or_introl eq_refl)) as (valid & x & A & S). rewrite A.
  destruct (c_opt c && negb valid) eqn:E.
  - assert (parts <> []) by (destruct P as [P|P]; auto; rewrite (P c cs eq_refl) in E; discriminate). destruct parts; [contradiction|]. cbn. eauto.
  - destruct S as (s & S). { destruct (c_opt c), valid; auto. } rewrite S. cbn [bind].
    assert (IH' : forall ss ps, ps <> [] -> exists r, tuple_parts show (sequence_from cs ss) d ps = Ok r) by (intros; apply IH; auto; intros; apply H; cbn; auto).
    destruct seps as [|sp seps]; cbn; apply IH'; intros Z; apply (f_equal (@List.length _)) in Z; rewrite !app_length in Z; cbn in Z; lia.
Qed.
Lemma value_total (T : tuples_ok G) fuel : forall a v, simple_array a -> shaped a v -> (depth a < fuel)%nat -> exists s, value_to_trlc G package_name own fuel a v = Ok s.
Proof.
  induction fuel as [|fuel IH]; intros a v A S F; [lia|]. cbn [value_to_trlc]. inversion S; subst; eauto.
  - destruct (fraction_ok (Qnum (Qred q)) (QDen (Qred q)) ltac:(lia)) as [(_ & lit & E & _)|(_ & E)]; rewrite E; eauto.
  - rewrite H. eauto.
  - destruct (rec G r); [eauto|contradiction].
  - assert (X : exists ps, show_all (value_to_trlc G package_name own fuel el) vs = Ok ps).
    { clear S. induction vs as [|v vs IHv]; cbn; [eauto|]. destruct (IH el v) as (s & ->); [|apply H; cbn; auto| |].
      - destruct el; cbn in *; auto; contradiction.
      - destruct el; cbn in *; try lia; contradiction.
      - cbn [bind]. destruct IHv as (ps & ->); [intros; apply H; cbn; auto|]. cbn [bind]. eauto. }
    destruct X as (ps & ->). cbn [bind]. eauto.
  - rewrite H. pose proof (T u ut H) as K. destruct (parts_total (value_to_trlc G package_name own fuel) (u_comps ut) (u_seps ut) d []) as (ps & E).
    + intros c I. destruct (H0 c I) as (valid & x & B & C). exists valid, x. split; auto. intros D. pose proof (to_types _ _ _ K c I) as Y.
      apply IH; auto; destruct (c_typ c); cbn in *; auto; try lia; contradiction.
    + right. intros c cs' E. eapply to_first; eauto.
    + unfold iter_sequence. rewrite E. cbn [bind]. eauto.
Qed.
Lemma rendered_total (T : tuples_ok G) a v : simple_array a -> shaped a v -> exists s, rendered G package_name own a v = Ok s.
Proof.
  intros A Sh. unfold rendered. destruct (Compare_dec.le_lt_dec (S (S (List.length (tups G)))) (depth a)) as [L|L]; [|apply value_total; auto].
  inversion Sh; subst; cbn in L; try lia.
  - destruct el; cbn in *; try lia. destruct vs as [|v vs].
    + cbn. eauto.
    + specialize (H v (or_introl eq_refl)). inversion H; subst. assert (u < List.length (tups G))%nat by (apply nth_error_Some; unfold tup in *; congruence). lia.
  - assert (u < List.length (tups G))%nat by (apply nth_error_Some; unfold tup in H; congruence). lia.
Qed.
End SHAPE.
