(** The values of tokens are what [LexSpec] says they denote. *)
From Coq Require Import QArith ZifyBool ZifyN ZifyNat.
From Verif Require Import Base PyText Lexer LexSpec LexerProofs LexerScan LexerCorrect LexerThm.
Open Scope Z_scope.

(** ** Stripping *)

Lemma lstrip_spec s : exists a, s = a ++ lstrip s /\ Forall white a /\
  match lstrip s with [] => True | c :: _ => ~ white c end.
Proof.
  induction s as [|c s IH]; cbn.
  - exists []. auto.
  - destruct (is_space c) eqn:E.
    + destruct IH as (a & H1 & H2 & H3). exists (c :: a). cbn. sp; auto; try congruence.
      constructor; auto. apply is_space_white; auto.
    + exists []. sp; auto. rewrite <- is_space_white. congruence.
Qed.

Lemma rstrip_spec s : exists b, s = rstrip s ++ b /\ Forall white b /\
  (forall c r, rstrip s = r ++ [c] -> ~ white c).
Proof.
  unfold rstrip. destruct (lstrip_spec (rev s)) as (a & H1 & H2 & H3).
  exists (rev a). split.
  - rewrite <- rev_app_distr, <- H1, rev_involutive. auto.
  - split; [apply Forall_rev; auto|]. intros c r E.
    apply (f_equal (@rev _)) in E. rewrite rev_involutive, rev_app_distr in E. cbn in E.
    rewrite E in H3. auto.
Qed.

Lemma rstrip_trimmed s : trimmed_right s (rstrip s).
Proof. destruct (rstrip_spec s) as (b & H). exists b. auto. Qed.

Lemma strip_trimmed s : trimmed s (strip s).
Proof.
  unfold strip. destruct (lstrip_spec s) as (a & H1 & H2 & H3).
  destruct (rstrip_spec (lstrip s)) as (b & H4 & H5 & H6).
  exists a, b. sp; auto.
  - rewrite <- H4. auto.
  - intros c r E. rewrite H4, E in H3. auto.
Qed.

Lemma strip_nil s : strip s = [] <-> Forall white s.
Proof.
  split.
  - intros H. destruct (strip_trimmed s) as (a & b & E & Fa & Fb & _). rewrite H in E. rewrite E.
    apply Forall_app; auto.
  - intros H. destruct (strip_trimmed s) as (a & b & E & Fa & Fb & N & _).
    destruct (strip s) as [|c r]; auto. exfalso. apply (N c r); auto.
    rewrite E in H. apply Forall_app in H as [_ H]. inversion H; auto.
Qed.

Lemma is_blank_spec s : is_blank s = true <-> Forall white s.
Proof. rewrite <- strip_nil. unfold is_blank. destruct (strip s); split; congruence. Qed.

(** ** Escapes *)

Lemma unescape_spec s : unescaped s (unescape s).
Proof.
  induction s as [s IH] using strong_length_ind.
  destruct s as [|c [|d s]]; cbn [unescape].
  - constructor.
  - constructor; [|constructor]. intros (_ & s' & E). discriminate.
  - destruct ((c =? 92) && (d =? 34))%N eqn:E.
    + apply andb_true_iff in E as [E1 E2]. apply N.eqb_eq in E1, E2. subst.
      constructor. apply IH. cbn; lia.
    + constructor.
      * intros (-> & s' & X). injection X as -> ->. discriminate.
      * apply IH. cbn; lia.
Qed.

Lemma unescaped_unique s r r' : unescaped s r -> unescaped s r' -> r = r'.
Proof.
  intros H. revert r'. induction H; intros r' H'; inversion H'; subst; auto.
  - f_equal; auto.
  - exfalso. apply H2. eauto.
  - exfalso. apply H. eauto.
  - f_equal; auto.
Qed.

(** ** Numbers *)

Lemma digit_value_val c : is_09 c || is_af c = true -> digit_val c (digit_value c).
Proof.
  unfold is_09, is_af, is_numeric, digit_value. intros H.
  destruct ((48 <=? c) && (c <=? 57))%N eqn:E1.
  { replace c with (Z.to_N (48 + Z.of_N (c - 48))) at 1 by lia. constructor. lia. }
  destruct ((97 <=? c) && (c <=? 102))%N eqn:E2.
  { replace c with (Z.to_N (97 + (Z.of_N (c - 87) - 10))) at 1 by lia. constructor. lia. }
  destruct ((65 <=? c) && (c <=? 70))%N eqn:E3; [|cbn in H; discriminate].
  replace c with (Z.to_N (65 + (Z.of_N (c - 55) - 10))) at 1 by lia. apply dv_AF. lia.
Qed.

Lemma digit_val_unique c d d' : digit_val c d -> digit_val c d' -> d = d'.
Proof. intros H H'; inversion H; inversion H'; subst; lia. Qed.

(** Digits of base [base], with underscores anywhere. *)
Definition digits_of (base : Z) (c : char) : Prop :=
  c = 95%N \/ (is_09 c || is_af c = true /\ digit_value c < base).

Lemma py_int_acc base s acc :
  fold_left (fun acc c => acc * base + digit_value c) s acc =
  acc * base ^ Z.of_nat (length s) + py_int base s.
Proof.
  unfold py_int. revert acc. induction s as [|c s IH]; intros acc; cbn [fold_left length].
  - change (Z.of_nat 0) with 0. rewrite Z.pow_0_r. lia.
  - rewrite IH. rewrite (IH (0 * base + digit_value c)).
    replace (Z.of_nat (S (length s))) with (Z.of_nat (length s) + 1) by lia.
    rewrite Z.pow_add_r, Z.pow_1_r by lia. ring.
Qed.

Lemma py_int_cons base c s :
  py_int base (c :: s) = digit_value c * base ^ Z.of_nat (length s) + py_int base s.
Proof. unfold py_int at 1. cbn [fold_left]. rewrite py_int_acc. f_equal. Qed.

Lemma py_int_app base a b :
  py_int base (a ++ b) = py_int base a * base ^ Z.of_nat (length b) + py_int base b.
Proof. unfold py_int at 1. rewrite fold_left_app, py_int_acc. auto. Qed.

Lemma py_int_positional base s :
  Forall (digits_of base) s ->
  positional base s (length (drop_underscores s)) (py_int base (drop_underscores s)).
Proof.
  unfold drop_underscores. induction 1 as [|c s H F IH]; cbn [filter].
  - constructor.
  - destruct H as [->|[H1 H2]].
    + cbn. constructor; auto.
    + replace (negb (c =? 95)%N) with true.
      * cbn [length]. rewrite py_int_cons. constructor; auto. apply digit_value_val; auto.
      * unfold is_09, is_af, is_numeric in H1. lia.
Qed.

Lemma digit_val_under d : ~ digit_val 95 d.
Proof. intros H. inversion H; lia. Qed.

Lemma positional_unique base s n v n' v' :
  positional base s n v -> positional base s n' v' -> n = n' /\ v = v'.
Proof.
  intros H. revert n' v'. induction H; intros n' v' H'; inversion H'; subst; auto.
  - exfalso. eapply digit_val_under; eauto.
  - exfalso. eapply digit_val_under; eauto.
  - match goal with H : positional _ _ ?a ?b |- _ = S ?a /\ _ => destruct (IHpositional _ _ H) as [-> ->] end.
    rewrite (digit_val_unique c d d0); auto.
Qed.

Lemma digit_digits c : digit c -> digits_of 10 c.
Proof.
  unfold digit, digits_of, is_09, is_af, is_numeric, digit_value. intros H. right.
  replace ((48 <=? c) && (c <=? 57))%N with true by lia. split; auto. lia.
Qed.
Lemma binary_digits c : binary c -> digits_of 2 c.
Proof. intros [->| ->]; right; split; reflexivity. Qed.
Lemma hex_digits c : hexadecimal c -> digits_of 16 c.
Proof.
  unfold hexadecimal, digit, hex_letter, digits_of, is_09, is_af, is_numeric, digit_value. intros H. right.
  split; [lia|].
  destruct ((48 <=? c) && (c <=? 57))%N eqn:E1; [lia|].
  destruct ((97 <=? c) && (c <=? 102))%N eqn:E2; [lia|].
  destruct ((65 <=? c) && (c <=? 70))%N eqn:E3; lia.
Qed.

Lemma groups_digits (f : char -> Prop) base s : (forall c, f c -> digits_of base c) -> digit_groups f s -> Forall (digits_of base) s.
Proof.
  intros H D. induction D; auto. constructor; auto. constructor; auto. left; auto.
Qed.

Lemma split_dot_spec a b : ~ In 46%N a -> split_dot (a ++ 46%N :: b) = (a, b).
Proof.
  induction a as [|c a IH]; cbn; intros H; auto.
  destruct (N.eqb_spec c 46); [exfalso; auto|]. rewrite IH; auto.
Qed.

Lemma drop_underscores_app a b : drop_underscores (a ++ b) = drop_underscores a ++ drop_underscores b.
Proof. apply filter_app. Qed.

Lemma groups_no_dot (f : char -> Prop) s : (forall c, f c -> c <> 46%N) -> digit_groups f s -> ~ In 46%N s.
Proof.
  intros H D. induction D; cbn; intros [E|E]; subst; auto; try (eapply H; eauto; fail).
  destruct E as [E|E]; auto. discriminate.
Qed.

Lemma pow10_pos n : 0 < 10 ^ Z.of_nat n.
Proof. apply Z.pow_pos_nonneg; lia. Qed.

Lemma py_fraction_denotes r1 r2 :
  digit_groups digit r1 -> digit_groups digit r2 ->
  dec_denotes (r1 ++ t "." ++ r2) (py_fraction (drop_underscores (r1 ++ t "." ++ r2))).
Proof.
  intros D1 D2.
  pose proof (py_int_positional 10 r1 (groups_digits _ _ _ digit_digits D1)) as P1.
  pose proof (py_int_positional 10 r2 (groups_digits _ _ _ digit_digits D2)) as P2.
  econstructor; eauto.
  rewrite !drop_underscores_app. change (drop_underscores (t ".")) with [46%N]. cbn [app].
  unfold py_fraction. rewrite split_dot_spec.
  2:{ intros I. apply filter_In in I as [I _]. revert I. apply (groups_no_dot digit); auto.
      unfold digit; intros; lia. }
  rewrite Qred_correct. rewrite py_int_app.
  set (v1 := py_int 10 (drop_underscores r1)). set (v2 := py_int 10 (drop_underscores r2)).
  set (n := length (drop_underscores r2)). pose proof (pow10_pos n) as HP.
  unfold Qeq, Qplus, Qdiv, Qmult, Qinv, inject_Z. cbn [Qnum Qden].
  destruct (10 ^ Z.of_nat n) as [|p|p] eqn:EP; try lia. cbn [Qnum Qden Z.to_pos].
  rewrite !Pos2Z.inj_mul. ring.
Qed.

(** ** Lines *)

Lemma is_linebreak_spec c : is_linebreak c = true <-> line_end c.
Proof. unfold is_linebreak, line_end. lia. Qed.

Lemma line_end_white c : line_end c -> white c.
Proof. unfold line_end. intros H. apply is_space_white. unfold is_space. lia. Qed.

Lemma splitlines_aux_spec acc s :
  Forall (fun c => ~ line_end c) acc -> lines (rev acc ++ s) (splitlines_aux acc s).
Proof.
  revert acc. induction s as [s IH] using strong_length_ind. intros acc Ha.
  assert (Hr : Forall (fun c => ~ line_end c) (rev acc)) by (apply Forall_rev; auto).
  destruct s as [|c s]; cbn [splitlines_aux].
  - destruct acc as [|d acc]; [constructor|]. rewrite app_nil_r. constructor; auto.
    intros E. apply (f_equal (@length _)) in E. rewrite rev_length in E. discriminate.
  - destruct (is_linebreak c) eqn:B.
    + apply is_linebreak_spec in B.
      assert (Next : forall s', (length s' < length (c :: s))%nat -> lines s' (splitlines_aux [] s')).
      { intros s' L. apply (IH s' L []). constructor. }
      destruct s as [|d s].
      * apply ln_end; auto. { intros (_ & r & E); discriminate. }
      * destruct ((c =? 13) && (d =? 10))%N eqn:E.
        -- apply andb_true_iff in E as [E1 E2]. apply N.eqb_eq in E1, E2. subst.
           apply ln_crlf; auto. apply Next. cbn; lia.
        -- apply ln_end; auto. 
           intros (-> & r & X). injection X as -> ->. discriminate.
    + replace (rev acc ++ c :: s) with (rev (c :: acc) ++ s) by (cbn; rewrite <- app_assoc; auto).
      apply IH; [cbn; lia|]. constructor; auto. rewrite <- is_linebreak_spec. congruence.
Qed.

Lemma splitlines_spec s : lines s (splitlines s).
Proof. apply (splitlines_aux_spec [] s). constructor. Qed.

Definition ends_dark (s : text) : Prop := forall c r, s = r ++ [c] -> ~ white c.

Lemma ends_dark_app (a b : text) : b <> [] -> ends_dark (a ++ b) -> ends_dark b.
Proof. intros N H c r E. apply (H c (a ++ r)). rewrite E, app_assoc. auto. Qed.

Lemma ends_dark_nonwhite s : s <> [] -> ends_dark s -> ~ Forall white s.
Proof.
  intros N H F. destruct (exists_last N) as (r & c & E). apply (H c r E).
  rewrite E in F. apply Forall_app in F as [_ F]. inversion F; auto.
Qed.

Lemma lines_last s ls :
  lines s ls -> s <> [] -> ends_dark s ->
  exists ls' l, ls = ls' ++ [l] /\ ~ Forall white l.
Proof.
  induction 1 as [|s N F|s rest ls F L IH|s c rest ls F E N L IH]; intros NE D.
  - contradiction.
  - exists [], s. split; auto. apply ends_dark_nonwhite; auto.
  - destruct rest as [|x rest].
    + exfalso. apply (D 10%N (s ++ [13%N])).
      * rewrite <- app_assoc. auto.
      * apply line_end_white. unfold line_end. lia.
    + destruct IH as (ls' & l & E1 & E2); [discriminate| |exists (s :: ls'), l; subst; auto].
      apply (ends_dark_app (s ++ [13%N; 10%N])); [discriminate|]. rewrite <- app_assoc. auto.
  - destruct rest as [|x rest].
    + exfalso. apply (D c s); auto. apply line_end_white; auto.
    + destruct IH as (ls' & l & E1 & E2); [discriminate| |exists (s :: ls'), l; subst; auto].
      apply (ends_dark_app (s ++ [c])); [discriminate|]. rewrite <- app_assoc. auto.
Qed.

Lemma lines_first s ls first :
  lines s (first :: ls) -> starts_dark s -> ~ Forall white first.
Proof.
  intros L D. inversion L; subst; intros F.
  - destruct first; auto. inversion F; auto.
  - destruct first; cbn in D; [|inversion F; auto]. apply D. apply line_end_white. unfold line_end. lia.
  - destruct first; cbn in D; [|inversion F; auto]. apply D. apply line_end_white. auto.
Qed.

Lemma lines_one s l : lines s [l] -> ends_dark s -> l = s.
Proof.
  intros L D. inversion L; subst; auto.
  - match goal with H : lines _ [] |- _ => inversion H; subst end. exfalso. apply (D 10%N (l ++ [13%N])).
    + rewrite <- app_assoc. auto.
    + apply line_end_white. unfold line_end. lia.
  - match goal with H : lines _ [] |- _ => inversion H; subst end. exfalso. apply (D c l); auto.
    apply line_end_white. auto.
Qed.

(** ** Dedenting *)

Definition prefix_of (p l : text) : Prop := exists l', l = p ++ l'.

Lemma prefix_firstn p (l : text) : prefix_of p l -> p = firstn (length p) l.
Proof. intros (l' & ->). rewrite firstn_app, Nat.sub_diag, firstn_all, app_nil_r. auto. Qed.

Lemma firstn_prefix n (l : text) : prefix_of (firstn n l) l.
Proof. exists (skipn n l). symmetry; apply firstn_skipn. Qed.

Lemma match_prefix_spec p l :
  (match_prefix p l <= length p)%nat /\ prefix_of (firstn (match_prefix p l) p) l /\
  (forall m, (m <= length p)%nat -> prefix_of (firstn m p) l -> (m <= match_prefix p l)%nat).
Proof.
  revert l. induction p as [|w p IH]; intros l; cbn [match_prefix].
  - sp; auto. exists l; auto.
  - destruct l as [|c l].
    + sp; cbn; [lia|exists []; auto|]. intros m _ (l' & E). destruct m; [lia|discriminate].
    + destruct (N.eqb_spec w c).
      * subst c. destruct (IH l) as (I1 & (l' & I2) & I3). sp; cbn [length]; [lia| |].
        -- exists l'. cbn. f_equal; auto.
        -- intros m Hm (l'' & E). destruct m; [lia|]. cbn in E. injection E as E.
           apply le_n_S, I3; [lia|exists l''; auto].
      * sp; cbn; [lia|exists (c :: l); auto|]. intros m _ (l' & E). destruct m; [lia|].
        cbn in E. congruence.
Qed.

Definition fold_common (ws : text) := fun n line => if is_blank line then n else match_prefix (firstn n ws) line.

Lemma prefix_shorter m n (ws l : text) : (m <= n)%nat -> prefix_of (firstn n ws) l -> prefix_of (firstn m ws) l.
Proof.
  intros H (l' & E). exists (skipn m (firstn n ws) ++ l'). rewrite app_assoc.
  replace (firstn m ws) with (firstn m (firstn n ws)) by (rewrite firstn_firstn; f_equal; lia).
  rewrite firstn_skipn. auto.
Qed.

Lemma common_len_spec ws lines : forall n0, (n0 <= length ws)%nat ->
  let n := fold_left (fold_common ws) lines n0 in
  (n <= n0)%nat /\
  (forall l, In l lines -> ~ Forall white l -> prefix_of (firstn n ws) l) /\
  (forall m, (m <= n0)%nat -> (forall l, In l lines -> ~ Forall white l -> prefix_of (firstn m ws) l) -> (m <= n)%nat).
Proof.
  induction lines as [|l lines IH]; intros n0 H; cbn [fold_left].
  - cbn. sp; auto. contradiction.
  - unfold fold_common at 2 4 6. destruct (is_blank l) eqn:B.
    + destruct (IH n0 H) as (I1 & I2 & I3). cbn zeta. sp; auto.
      * intros x [<-|I] Nx; auto. apply is_blank_spec in B. contradiction.
      * intros m Hm Hp. apply I3; auto. intros x I. apply Hp. right; auto.
    + destruct (match_prefix_spec (firstn n0 ws) l) as (M1 & M2 & M3).
      rewrite firstn_length_le in M1, M3 by auto.
      assert (M2' : prefix_of (firstn (match_prefix (firstn n0 ws) l) ws) l).
      { rewrite firstn_firstn in M2. rewrite Nat.min_l in M2; auto. }
      destruct (IH (match_prefix (firstn n0 ws) l)) as (I1 & I2 & I3); [lia|]. cbn zeta in *. sp.
      * lia.
      * intros x [<-|I] Nx; auto. eapply prefix_shorter; eauto.
      * intros m Hm Hp. apply I3.
        -- apply M3; auto. rewrite firstn_firstn, Nat.min_l by auto. apply Hp; [left; auto|].
           rewrite <- is_blank_spec. congruence.
        -- intros x I. apply Hp. right; auto.
Qed.

Lemma blank_prefix_spec s :
  Forall blank_or_tab (blank_prefix s) /\ prefix_of (blank_prefix s) s /\
  (forall p, Forall blank_or_tab p -> prefix_of p s -> p = firstn (length p) (blank_prefix s) /\ (length p <= length (blank_prefix s))%nat).
Proof.
  induction s as [|c s (I1 & (l' & I2) & I3)]; cbn [blank_prefix].
  - sp; auto. { exists []; auto. } intros p F (l' & E). destruct p; [auto|discriminate].
  - destruct ((c =? 32) || (c =? 9))%N eqn:B.
    + sp.
      * constructor; auto. unfold blank_or_tab. lia.
      * exists l'. cbn. congruence.
      * intros p F (l'' & E). destruct p as [|x p]; cbn; [split; auto; lia|]. injection E as <- E.
        inversion F; subst. destruct (I3 p) as [J1 J2]; auto. { exists l''; auto. } split; [congruence|lia].
    + sp; auto. { exists (c :: s); auto. } intros p F (l'' & E). destruct p as [|x p]; auto.
      injection E as <- E. inversion F; subst. unfold blank_or_tab in *. lia.
Qed.

Lemma rstrip_white s : Forall white s -> rstrip s = [].
Proof.
  intros F. destruct (rstrip_trimmed s) as (b & E & _ & D).
  destruct (rstrip s) as [|c r]; auto. exfalso.
  apply (ends_dark_nonwhite (c :: r)); [discriminate| |].
  - intros x y E'. eapply D; eauto.
  - rewrite E in F. apply Forall_app in F as [F _]. auto.
Qed.

Lemma Forall_skipn {A} (P : A -> Prop) n l : Forall P l -> Forall P (skipn n l).
Proof.
  intros F. rewrite <- (firstn_skipn n l) in F. apply Forall_app in F. apply F.
Qed.

Lemma Forall2_map_r {A B} (P : A -> B -> Prop) f l :
  (forall x, In x l -> P x (f x)) -> Forall2 P l (map f l).
Proof. induction l; cbn; intros H; constructor; auto. Qed.

Lemma triple_value_spec q body :
  q = 34%N \/ q = 39%N ->
  triple_value body (triple_quoted_string_value ([q; q; q] ++ body ++ [q; q; q])).
Proof.
  intros _. unfold triple_quoted_string_value.
  replace (drop_last 3 (skipn 3 ([q; q; q] ++ body ++ [q; q; q]))) with body.
  2:{ cbn [app skipn]. unfold drop_last. rewrite app_length. cbn [length].
      replace (length body + 3 - 3)%nat with (length body) by lia.
      rewrite firstn_app, Nat.sub_diag, firstn_all, app_nil_r. auto. }
  pose proof (strip_trimmed body) as T. pose proof (splitlines_spec (strip body)) as L.
  destruct (splitlines (strip body)) as [|first more] eqn:ES.
  { apply tv_empty. apply strip_nil. inversion L; auto. }
  assert (NE : strip body <> []).
  { intros E. rewrite E in ES. discriminate. }
  assert (SD : starts_dark (strip body)).
  { destruct T as (a & b & _ & _ & _ & D & _). destruct (strip body); [contradiction|]. eapply D; eauto. }
  assert (ED : ends_dark (strip body)).
  { destruct T as (a & b & _ & _ & _ & _ & D). intros c r E. eapply D; eauto. }
  assert (NF : is_blank first = false).
  { apply not_true_iff_false. rewrite is_blank_spec. eapply lines_first; eauto. }
  cbn [filter]. rewrite NF. cbn [negb].
  destruct (lines_last _ _ L NE ED) as (ls' & last & EL & NL).
  assert (NB : is_blank last = false) by (apply not_true_iff_false; rewrite is_blank_spec; auto).
  destruct (filter (fun l => negb (is_blank l)) more) as [|second others] eqn:EF.
  - assert (more = []).
    { destruct ls' as [|x ls']; [injection EL; auto|]. injection EL as <- ->.
      rewrite filter_app in EF. apply app_eq_nil in EF as [_ EF]. cbn in EF. rewrite NB in EF. discriminate. }
    subst more. assert (first = strip body) by (eapply lines_one; eauto). subst first.
    apply tv_one; auto.
  - assert (ISec : In second more /\ is_blank second = false).
    { assert (I : In second (filter (fun l => negb (is_blank l)) more)) by (rewrite EF; left; auto).
      apply filter_In in I as [I1 I2]. split; auto. destruct (is_blank second); auto; discriminate. }
    destruct ISec as [ISec NSec].
    set (ws := blank_prefix second).
    unfold common_len. change (fun n line => if is_blank line then n else match_prefix (firstn n ws) line) with (fold_common ws).
    destruct (common_len_spec ws (tl more) (length ws)) as (C1 & C2 & C3); [lia|].
    set (n := fold_left (fold_common ws) (tl more) (length ws)) in *. cbn zeta in *.
    destruct (blank_prefix_spec second) as (B1 & B2 & B3). fold ws in B1, B2, B3.
    assert (InCases : forall l, In l more -> ~ Forall white l -> l = second \/ In l (tl more)).
    { intros l I Nl. destruct more as [|m more']; [contradiction|]. destruct I as [<-|I]; [left|right; auto].
      cbn in EF. replace (is_blank m) with false in EF.
      - cbn in EF. congruence.
      - symmetry. apply not_true_iff_false. rewrite is_blank_spec. auto. }
    assert (PA : forall l, In l more -> ~ Forall white l -> prefix_of (firstn n ws) l).
    { intros l I Nl. destruct (InCases l I Nl) as [->|I']; auto.
      eapply prefix_shorter with (n := length ws); auto. rewrite firstn_all. auto. }
    assert (HN : length (firstn n ws) = n) by (apply firstn_length_le; auto).
    replace (concat (map (fun l => nl ++ rstrip (skipn n l)) more))
      with (concat (map (fun r => newline :: r) (map (fun l => rstrip (skipn n l)) more)))
      by (rewrite map_map; reflexivity).
    eapply tv_many with (p := firstn n ws); eauto.
    + intros E. rewrite E in ISec. contradiction.
    + split; [|split].
      * apply Forall_forall. intros x I. rewrite Forall_forall in B1. apply B1.
        rewrite <- (firstn_skipn n ws). apply in_or_app; auto.
      * auto.
      * intros p' F' H'. rewrite HN.
        destruct (B3 p' F') as [J1 J2].
        { apply H'; auto. rewrite <- is_blank_spec. congruence. }
        apply C3; auto. intros l I Nl. rewrite <- J1. apply H'; auto.
        destruct more; [contradiction|right; auto].
    + apply Forall2_map_r. intros l I. destruct (is_blank l) eqn:BL.
      * left. apply is_blank_spec in BL. split; auto. apply rstrip_white. apply Forall_skipn; auto.
      * right. assert (Nl : ~ Forall white l) by (rewrite <- is_blank_spec; congruence). split; auto.
        destruct (PA l I Nl) as (l' & E). exists l'. split; auto. rewrite E at 1.
        rewrite <- HN at 1. rewrite skipn_app, Nat.sub_diag, skipn_all. cbn. apply rstrip_trimmed.
Qed.

(** ** All tokens *)

Lemma drop_last_app (a b : text) n : n = length b -> drop_last n (a ++ b) = a.
Proof.
  intros ->. unfold drop_last. rewrite app_length.
  replace (length a + length b - length b)%nat with (length a) by lia.
  rewrite firstn_app, Nat.sub_diag, firstn_all, app_nil_r. auto.
Qed.

Lemma starts_with_spec p s : starts_with p s = true <-> prefix_of p s.
Proof.
  revert s. induction p as [|x p IH]; intros [|y s]; cbn; split; intros H; auto; try discriminate.
  - exists []; auto.
  - exists (y :: s); auto.
  - destruct H as (l & E). discriminate.
  - apply andb_true_iff in H as [H1 H2]. apply N.eqb_eq in H1. apply IH in H2 as (l & ->). subst. exists l; auto.
  - destruct H as (l & E). injection E as -> ->. rewrite N.eqb_refl. apply IH. exists l; auto.
Qed.

Lemma ends_with_spec p s : ends_with p s = true <-> exists b, s = b ++ p.
Proof.
  unfold ends_with. rewrite starts_with_spec. split.
  - intros (l & E). exists (rev l). apply (f_equal (@rev _)) in E.
    rewrite rev_app_distr, !rev_involutive in E. auto.
  - intros (b & ->). exists (rev b). apply rev_app_distr.
Qed.

Lemma delimiter_not d k : delimiter d k -> k <> COMMENT /\ k <> STRING /\ k <> INTEGER /\ k <> DECIMAL /\ k <> IDENTIFIER /\ k <> KEYWORD.
Proof. destruct 1; sp; discriminate. Qed.

Lemma line_comment_value base body :
  token_value COMMENT base (t "//" ++ body) = (COMMENT, VText (strip body)).
Proof. reflexivity. Qed.
Lemma block_comment_value base body :
  token_value COMMENT base (t "/*" ++ body) =
  (COMMENT, VText (strip (if ends_with (t "*/") body then drop_last 2 body else body))).
Proof. reflexivity. Qed.

Lemma block_comment_denotes body :
  token_denotes (t "/*" ++ body) COMMENT
    (VText (strip (if ends_with (t "*/") body then drop_last 2 body else body))).
Proof.
  destruct (ends_with (t "*/") body) eqn:E.
  - apply ends_with_spec in E as (b & ->). rewrite drop_last_app by auto.
    apply td_block_comment. apply strip_trimmed.
  - apply td_block_comment_open; [apply strip_trimmed|]. intros b Hb.
    apply not_true_iff_false in E. apply E. apply ends_with_spec. eauto.
Qed.

Lemma string_value base body : string_body body ->
  token_value STRING base (t """" ++ body ++ t """") = (STRING, VText (unescape body)).
Proof.
  intros S. unfold token_value.
  replace (starts_with (t """""""") (t """" ++ body ++ t """")) with false.
  - replace (starts_with (t """") (t """" ++ body ++ t """")) with true by reflexivity.
    cbn [t map list_ascii_of_string app skipn]. rewrite drop_last_app by auto. auto.
  - symmetry. apply not_true_iff_false. rewrite starts_with_spec. intros (l & E). cbn in E.
    destruct body as [|c body]; cbn in E; [discriminate|].
    injection E as -> E. eapply string_body_head; eauto.
Qed.

Lemma triple_token_value base q body : q = 34%N \/ q = 39%N ->
  token_value STRING base ([q; q; q] ++ body) = (STRING, VText (triple_quoted_string_value ([q; q; q] ++ body))).
Proof. intros [->| ->]; reflexivity. Qed.

Ltac not_delim :=
  match goal with H : delimiter _ _ |- _ => apply delimiter_not in H; exfalso; intuition congruence end.
Ltac not_word :=
  match goal with H : _ \/ _ |- _ => exfalso; destruct H as [[H _]|[H _]]; discriminate end.

Lemma drop_prefix (p r : text) : Forall (fun c => c <> 95%N) p -> skipn (length p) (drop_underscores (p ++ r)) = drop_underscores r.
Proof.
  intros F. rewrite drop_underscores_app.
  replace (drop_underscores p) with p.
  - rewrite skipn_app, Nat.sub_diag, skipn_all. auto.
  - clear r. induction F; cbn; auto. replace (negb (x =? 95)%N) with true by lia. cbn. f_equal; auto.
Qed.

Lemma token_value_denotes txt after k base k' v :
  lexeme txt after k' -> base_ok k base txt -> token_value k base txt = (k', v) ->
  token_denotes txt k' v.
Proof.
  intros L B T.
  assert (Del : k' <> OPERATOR -> v = VNone -> k = k' -> k <> COMMENT -> k <> STRING -> k <> INTEGER -> k <> DECIMAL -> k <> IDENTIFIER -> k <> KEYWORD ->
                token_denotes txt k' v).
  { intros H1 -> -> H2 H3 H4 H5 H6 H7. apply td_delimiter; auto. destruct L; try contradiction; auto.
    match goal with H : _ \/ _ |- _ => destruct H as [[-> _]|[-> _]]; contradiction end. }
  destruct k; try (cbn [token_value] in T; injection T as <- <-; apply Del; auto; discriminate).
  - (* COMMENT *)
    assert (k' = COMMENT) by (cbn [token_value] in T; destruct (starts_with (t "//") txt); congruence). subst k'.
    inversion L; subst; try not_delim; try not_word.
    + rewrite line_comment_value in T. injection T as <-. apply td_line_comment. apply strip_trimmed.
    + rewrite block_comment_value in T. injection T as <-. apply block_comment_denotes.
    + rewrite block_comment_value in T. injection T as <-. apply block_comment_denotes.
  - cbn [token_value] in T. destruct (is_keyword txt); injection T as <- <-; apply td_word; auto.
  - cbn [token_value] in T. injection T as <- <-. apply td_operator.
  - (* INTEGER *)
    cbn [base_ok] in B. destruct B as [(-> & r & -> & D)|[(-> & r & -> & D)|(-> & D)]].
    + change (token_value INTEGER 2 (t "0b" ++ r)) with
        (INTEGER, VInt (py_int 2 (skipn (length (t "0b")) (drop_underscores (t "0b" ++ r))))) in T.
      rewrite drop_prefix in T by (repeat constructor; discriminate). injection T as <- <-.
      apply td_integer. eapply id_binary. apply py_int_positional. exact (groups_digits _ _ _ binary_digits D).
    + change (token_value INTEGER 16 (t "0x" ++ r)) with
        (INTEGER, VInt (py_int 16 (skipn (length (t "0x")) (drop_underscores (t "0x" ++ r))))) in T.
      rewrite drop_prefix in T by (repeat constructor; discriminate). injection T as <- <-.
      apply td_integer. eapply id_hex. apply py_int_positional. exact (groups_digits _ _ _ hex_digits D).
    + cbn [token_value] in T. change (10 =? 10) with true in T. cbn iota in T. injection T as <- <-.
      apply td_integer. eapply id_dec. apply py_int_positional. exact (groups_digits _ _ _ digit_digits D).
  - (* DECIMAL *)
    cbn [base_ok token_value] in *. destruct B as (r1 & r2 & -> & D1 & D2). injection T as <- <-.
    apply td_decimal. apply py_fraction_denotes; auto.
  - (* STRING *)
    assert (k' = STRING) by (cbn [token_value] in T; destruct (starts_with (t """""""") txt), (starts_with (t """") txt); congruence). subst k'.
    inversion L; subst; try not_delim; try not_word.
    + rewrite string_value in T by auto. injection T as <-. apply td_string. apply unescape_spec.
    + rewrite triple_token_value in T by auto. injection T as <-.
      match goal with H : first_end _ _ |- _ => destruct H as [(x & ->) _] end.
      apply td_triple; auto. apply triple_value_spec; auto.
Qed.

Theorem lex_token_denotes content ts tk :
  lex content = Lexed ts -> In tk ts ->
  token_denotes (source_text content tk) (tk_kind tk) (tk_value tk).
Proof.
  intros E I. pose proof (lex_spec content) as O. rewrite E in O. destruct O as [_ O].
  rewrite Forall_forall in O. destruct (O tk I) as (_ & _ & _ & L & k & base & B & T).
  eapply token_value_denotes; eauto.
Qed.

(** ** Denotations are unique *)

Lemma positional_10_no_letter (c : char) (a r : text) n v :
  positional 10 (a ++ c :: r) n v -> digit c \/ c = 95%N.
Proof.
  revert n v. induction a as [|x a IH]; cbn; intros n v H; inversion H; subst; eauto.
  left. match goal with H : digit_val c _ |- _ => inversion H; subst end; unfold digit; lia.
Qed.

Lemma int_denotes_unique txt v v' : int_denotes txt v -> int_denotes txt v' -> v = v'.
Proof.
  intros H H'. inversion H; inversion H'; subst;
    repeat match goal with
    | E : t "0b" ++ _ = t "0b" ++ _ |- _ => apply app_inv_head in E; subst
    | E : t "0x" ++ _ = t "0x" ++ _ |- _ => apply app_inv_head in E; subst
    | E : t "0b" ++ _ = t "0x" ++ _ |- _ => discriminate E
    | E : t "0x" ++ _ = t "0b" ++ _ |- _ => discriminate E
    end;
    try match goal with
    | A : positional ?b ?s _ _, B : positional ?b ?s _ _ |- _ => apply (positional_unique b s _ _ _ _ A B)
    end;
    exfalso; match goal with
    | P : positional 10 (t "0b" ++ ?r) _ _ |- _ => apply (positional_10_no_letter 98%N (t "0") r) in P; unfold digit in P; lia
    | P : positional 10 (t "0x" ++ ?r) _ _ |- _ => apply (positional_10_no_letter 120%N (t "0") r) in P; unfold digit in P; lia
    end.
Qed.

Lemma positional_no_dot base s n v : positional base s n v -> ~ In 46%N s.
Proof.
  induction 1 as [|s n v H IH|c d s n v D B H IH]; cbn; auto.
  - intros [E|E]; [discriminate|auto].
  - intros [E|E]; auto. subst. inversion D; subst; lia.
Qed.

Lemma dot_split (a b c d : text) : ~ In 46%N a -> ~ In 46%N c -> a ++ 46%N :: b = c ++ 46%N :: d -> a = c /\ b = d.
Proof.
  intros A C E. pose proof (split_dot_spec a b A). pose proof (split_dot_spec c d C). rewrite E in H.
  split; congruence.
Qed.

Lemma dec_denotes_unique txt q q' : dec_denotes txt q -> dec_denotes txt q' -> (q == q')%Q.
Proof.
  intros H H'. inversion H as [r1 r2 n1 v1 n2 v2 x P1 P2 E]; inversion H' as [s1 s2 m1 w1 m2 w2 y P3 P4 E' X]; subst.
  cbn in X. apply dot_split in X as [-> ->]; try (eapply positional_no_dot; eauto).
  destruct (positional_unique _ _ _ _ _ _ P1 P3) as [-> ->].
  destruct (positional_unique _ _ _ _ _ _ P2 P4) as [-> ->].
  rewrite E, E'. reflexivity.
Qed.
