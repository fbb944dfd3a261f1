(** Specifications and proofs for MathModel. *)
From Coq Require Import ZArith QArith Qround Qabs Lia Lqa ZifyBool.
From Verif Require Import Base MathModel.
Open Scope Z_scope.

(** ** Specification (no model functions) *)

(** [r] is a remainder of [x] by [y] whose sign follows [s]. *)
Definition is_remainder (s x y r : Z) : Prop :=
  (exists n, x = y * n + r) /\ Z.abs r < Z.abs y /\ (r = 0 \/ Z.sgn r = Z.sgn s).

(** What the reference manual (lrm.trlc, Remainder_Semantics) asks for: the
    sign is that of [y]. *)
Definition lrm_remainder (x y r : Z) : Prop := is_remainder y x y r.

(** [n] is the integer nearest to [q]; between two equally near ones it is
    the one of larger magnitude. *)
Definition nearest_away (q : Q) (n : Z) : Prop :=
  forall m : Z,
    (Qabs (q - inject_Z n) < Qabs (q - inject_Z m))%Q \/
    (Qabs (q - inject_Z n) == Qabs (q - inject_Z m))%Q /\ Z.abs m <= Z.abs n.

(** Floor division: [d] is the greatest integer not above the exact
    quotient. *)
Definition is_floor_quotient (x y d : Z) : Prop :=
  (inject_Z d <= inject_Z x / inject_Z y)%Q /\
  forall e, (inject_Z e <= inject_Z x / inject_Z y)%Q -> e <= d.

(** ** Proofs *)

Lemma remainder_spec x y :
  y <> 0 -> exists r, remainder x y = Some r /\ is_remainder x x y r.
Proof.
  intros Hy. unfold remainder.
  destruct (Z.eqb_spec y 0) as [E|_]; [contradiction|].
  pose proof (Z.mod_pos_bound (Z.abs x) (Z.abs y) ltac:(lia)) as Hb.
  pose proof (Z.div_mod (Z.abs x) (Z.abs y) ltac:(lia)) as Hd.
  destruct (x >=? 0) eqn:Hx; eexists; (split; [reflexivity|]); unfold is_remainder.
  - split; [|split]; [|lia|].
    + exists (Z.sgn y * (Z.abs x / Z.abs y)).
      rewrite Z.mul_assoc. rewrite Z.sgn_abs. lia.
    + destruct (Z.eq_dec (Z.abs x mod Z.abs y) 0); [left; auto|right].
      assert (x <> 0). { intros ->. apply n. apply Z.mod_0_l. lia. }
      lia.
  - split; [|split]; [|lia|].
    + exists (- Z.sgn y * (Z.abs x / Z.abs y)).
      replace (y * (- Z.sgn y * (Z.abs x / Z.abs y))) with (- ((y * Z.sgn y) * (Z.abs x / Z.abs y))) by ring.
      rewrite Z.sgn_abs. lia.
    + destruct (Z.eq_dec (Z.abs x mod Z.abs y) 0); [left; lia|right]. lia.
Qed.

Lemma is_remainder_unique s x y r1 r2 :
  is_remainder s x y r1 -> is_remainder s x y r2 -> r1 = r2.
Proof.
  intros ([n1 E1] & B1 & S1) ([n2 E2] & B2 & S2).
  assert (D : r1 - r2 = y * (n2 - n1)) by lia.
  assert (Hb : Z.abs (r1 - r2) < Z.abs y).
  { destruct S1 as [->|S1], S2 as [->|S2]; try lia. }
  destruct (Z.eq_dec (n2 - n1) 0) as [E0|N0]; [rewrite E0 in D; lia|].
  rewrite D in Hb. rewrite Z.abs_mul in Hb. exfalso. nia.
Qed.

Lemma remainder_odd x y :
  remainder (- x) y = option_map Z.opp (remainder x y).
Proof.
  unfold remainder. destruct (y =? 0); [reflexivity|].
  rewrite Z.abs_opp.
  destruct (Z.eq_dec x 0) as [->|Hx]; [reflexivity|].
  destruct (- x >=? 0) eqn:H1, (x >=? 0) eqn:H2; simpl; try lia; f_equal; lia.
Qed.

Lemma remainder_zero x y : remainder x y = None <-> y = 0.
Proof.
  unfold remainder. destruct (Z.eqb_spec y 0); [tauto|].
  destruct (x >=? 0); split; intros; try discriminate; contradiction.
Qed.

(** When both operands have the same sign the manual's rule is met. *)
Lemma remainder_lrm_same_sign x y r :
  y <> 0 -> Z.sgn x = Z.sgn y \/ x = 0 -> remainder x y = Some r -> lrm_remainder x y r.
Proof.
  intros Hy Hs Hr. destruct (remainder_spec x y Hy) as (r' & Hr' & H).
  rewrite Hr in Hr'. inversion Hr'; subst r'. destruct H as (A & B & C).
  split; [exact A|split; [exact B|]].
  destruct Hs as [Hs| ->]; [rewrite <- Hs; exact C|].
  left. simpl in C. lia.
Qed.

Lemma int_divide_spec x y :
  y <> 0 -> exists d, int_divide x y = Some d /\ is_floor_quotient x y d.
Proof.
  intros Hy. unfold int_divide. destruct (Z.eqb_spec y 0) as [E|_]; [contradiction|].
  eexists; split; [reflexivity|]. unfold is_floor_quotient.
  assert (Hq : ~ (inject_Z y == 0)%Q).
  { unfold Qeq; simpl. lia. }
  assert (Key : forall e, (inject_Z e <= inject_Z x / inject_Z y)%Q <->
                          (0 < y /\ e * y <= x) \/ (y < 0 /\ x <= e * y)).
  { intros e. destruct (Z_lt_dec 0 y) as [Hp|Hp].
    - assert (P : (0 < inject_Z y)%Q) by (unfold Qlt; simpl; lia).
      split; intros H.
      + left. split; auto. apply (Qmult_le_compat_r _ _ (inject_Z y)) in H; [|lra].
        unfold Qdiv in H. rewrite <- Qmult_assoc, (Qmult_comm (/ _)), Qmult_inv_r, Qmult_1_r in H by auto.
        rewrite <- inject_Z_mult in H. unfold Qle in H; simpl in H. lia.
      + destruct H as [[_ H]|[H _]]; [|lia].
        apply Qle_shift_div_l; auto. rewrite <- inject_Z_mult. unfold Qle; simpl. lia.
    - assert (P : (0 < - inject_Z y)%Q) by (unfold Qlt; simpl; lia).
      assert (Eq : (inject_Z x / inject_Z y == (- inject_Z x) / (- inject_Z y))%Q).
      { field. auto. }
      rewrite Eq. rewrite <- !inject_Z_opp in *.
      assert (P' : (0 < inject_Z (- y))%Q) by auto.
      assert (N' : ~ (inject_Z (- y) == 0)%Q) by lra.
      split; intros H.
      + right. split; [lia|]. apply (Qmult_le_compat_r _ _ (inject_Z (-y))) in H; [|lra].
        unfold Qdiv in H. rewrite <- Qmult_assoc, (Qmult_comm (/ _)), Qmult_inv_r, Qmult_1_r in H by auto.
        rewrite <- inject_Z_mult in H. unfold Qle in H; simpl in H. lia.
      + destruct H as [[H _]|[_ H]]; [lia|].
        apply Qle_shift_div_l; auto. rewrite <- inject_Z_mult. unfold Qle; simpl. lia. }
  pose proof (Z.div_mod x y Hy) as Hd. 
  split.
  - apply Key. destruct (Z_lt_dec 0 y).
    + left. pose proof (Z.mod_pos_bound x y). split; nia.
    + right. pose proof (Z.mod_neg_bound x y). split; nia.
  - intros e He. apply Key in He. destruct He as [[P He]|[P He]].
    + pose proof (Z.mod_pos_bound x y P). nia.
    + pose proof (Z.mod_neg_bound x y P). nia.
Qed.

Lemma int_divide_zero x y : int_divide x y = None <-> y = 0.
Proof.
  unfold int_divide. destruct (Z.eqb_spec y 0); split; intros; try tauto; try discriminate; contradiction.
Qed.

Lemma is_floor_quotient_unique x y d1 d2 :
  is_floor_quotient x y d1 -> is_floor_quotient x y d2 -> d1 = d2.
Proof. intros [A B] [C D]. apply Z.le_antisymm; auto. Qed.

Lemma Qabs_cases q : (0 <= q /\ Qabs q == q \/ q < 0 /\ Qabs q == - q)%Q.
Proof.
  destruct (Qlt_le_dec q 0); [right|left]; split; auto.
  - apply Qabs_neg; lra.
  - apply Qabs_pos; lra.
Qed.

Lemma nearest_away_intro_nonneg q n :
  (0 <= q)%Q -> (inject_Z n <= q + (1#2))%Q -> (q + (1#2) < inject_Z (n + 1))%Q ->
  nearest_away q n.
Proof.
  intros H0 H1 H2 m.
  rewrite inject_Z_plus in H2. change (inject_Z 1) with 1%Q in H2.
  assert (Hn : 0 <= n).
  { assert (H : (inject_Z (-1) < inject_Z n)%Q) by (change (inject_Z (-1)) with (-(1))%Q; lra).
    rewrite <- Zlt_Qlt in H. lia. }
  destruct (Z.eq_dec m n) as [->|Hm]; [right; split; [reflexivity|lia]|].
  destruct (Z_lt_dec m n) as [L|L].
  - assert (HL : (inject_Z m <= inject_Z n - 1)%Q).
    { rewrite Zle_Qle in *. replace (inject_Z n - 1)%Q with (inject_Z n + inject_Z (-1))%Q by reflexivity.
      rewrite <- inject_Z_plus. rewrite <- Zle_Qle. lia. }
    destruct (Qabs_cases (q - inject_Z n)) as [[A A']|[A A']], (Qabs_cases (q - inject_Z m)) as [[B B']|[B B']];
      rewrite A', B'; try (left; lra).
    destruct (Qlt_le_dec (- (q - inject_Z n)) (q - inject_Z m)) as [X|X]; [left; lra|].
    right. split; [lra|]. 
    assert (Em : (inject_Z m == inject_Z n - 1)%Q) by lra.
    assert (Em' : (inject_Z m == inject_Z (n - 1))%Q).
    { rewrite Em. unfold Z.sub. rewrite inject_Z_plus. reflexivity. }
    unfold Qeq in Em'; simpl in Em'. 
    assert (0 < n). { assert (H : (inject_Z 0 < inject_Z n)%Q) by (change (inject_Z 0) with 0%Q; lra).
      rewrite <- Zlt_Qlt in H. lia. }
    lia.
  - assert (HL : (inject_Z n + 1 <= inject_Z m)%Q).
    { change 1%Q with (inject_Z 1). rewrite <- inject_Z_plus. rewrite <- Zle_Qle. lia. }
    left.
    destruct (Qabs_cases (q - inject_Z n)) as [[A A']|[A A']], (Qabs_cases (q - inject_Z m)) as [[B B']|[B B']];
      rewrite A', B'; lra.
Qed.

Lemma nearest_away_opp q n : nearest_away (- q) (- n) -> nearest_away q n.
Proof.
  intros H m. specialize (H (- m)).
  assert (E : forall k, (Qabs (- q - inject_Z (- k)) == Qabs (q - inject_Z k))%Q).
  { intros k. rewrite <- (Qabs_opp (q - inject_Z k)). apply Qabs_wd. rewrite inject_Z_opp. ring. }
  rewrite !E in H. rewrite !Z.abs_opp in H. exact H.
Qed.

Lemma round_nearest_away_spec q : nearest_away q (round_nearest_away q).
Proof.
  unfold round_nearest_away. destruct (Qle_bool 0 q) eqn:E.
  - apply Qle_bool_iff in E. apply nearest_away_intro_nonneg; auto.
    + apply Qfloor_le.
    + apply Qlt_floor.
  - assert (Hneg : (q < 0)%Q).
    { destruct (Qlt_le_dec q 0); auto. exfalso.
      apply Qle_bool_iff in q0. congruence. }
    apply nearest_away_opp. unfold Qceiling. rewrite Z.opp_involutive.
    assert (Hc : (- (q - (1#2)) == - q + (1#2))%Q) by ring.
    pose proof (Qfloor_le (- (q - (1#2)))) as F1. pose proof (Qlt_floor (- (q - (1#2)))) as F2.
    rewrite Hc in F1 at 2. rewrite Hc in F2 at 1.
    apply nearest_away_intro_nonneg; auto. lra.
Qed.

Lemma nearest_away_unique q n m :
  nearest_away q n -> nearest_away q m -> n = m.
Proof.
  intros Hn Hm. pose proof (Hn m) as A. pose proof (Hm n) as B.
  pose proof (Hn 0) as Z0.
  assert (C : n = m \/ n = - m).
  { destruct A as [A|[A A']], B as [B|[B B']]; try lra. lia. }
  destruct C as [C|C]; [exact C|]. subst n.
  destruct A as [A|[A _]], B as [B|[B _]]; try lra.
  rewrite inject_Z_opp in A. change (inject_Z 0) with 0%Q in Z0. rewrite inject_Z_opp in Z0.
  assert (E : (inject_Z m == 0)%Q).
  { destruct (Qabs_cases (q - - inject_Z m)) as [[X X']|[X X']],
             (Qabs_cases (q - inject_Z m)) as [[Y Y']|[Y Y']],
             (Qabs_cases (q - 0)) as [[W W']|[W W']];
      rewrite X', Y' in A; rewrite X', W' in Z0; destruct Z0 as [Z0|[Z0 Z0']]; lra. }
  unfold Qeq in E; simpl in E. lia.
Qed.

Lemma round_integral z : round_nearest_away (inject_Z z) = z.
Proof.
  pose proof (round_nearest_away_spec (inject_Z z) z) as H.
  assert (E : (Qabs (inject_Z z - inject_Z z) == 0)%Q).
  { rewrite <- (Qabs_pos 0) by lra. apply Qabs_wd. ring. }
  pose proof (Qabs_nonneg (inject_Z z - inject_Z (round_nearest_away (inject_Z z)))) as P.
  destruct H as [H|[H _]]; [rewrite E in H; lra|].
  rewrite E in H.
  destruct (Qabs_cases (inject_Z z - inject_Z (round_nearest_away (inject_Z z)))) as [[_ A]|[_ A]];
    rewrite A in H;
    (assert (X : (inject_Z z == inject_Z (round_nearest_away (inject_Z z)))%Q) by lra);
    unfold Qeq in X; simpl in X; lia.
Qed.

Lemma round_compat q1 q2 : (q1 == q2)%Q -> round_nearest_away q1 = round_nearest_away q2.
Proof.
  intros E. unfold round_nearest_away.
  assert (B : Qle_bool 0 q1 = Qle_bool 0 q2) by (rewrite E; reflexivity).
  rewrite B. destruct (Qle_bool 0 q2); rewrite E; reflexivity.
Qed.
