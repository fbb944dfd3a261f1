(** Property theorems C12, C13, C14. *)
From Coq Require Import ZArith QArith Qround.
From Verif Require Import Base MathModel MathProofs.
Open Scope Z_scope.

(** C12: [x % y] is a remainder (differs by a multiple, smaller than [|y|])
    whose sign is that of [x]; it is the only such number. *)
Theorem C12_remainder_partial :
  forall x y, y <> 0 ->
    exists r, remainder x y = Some r /\ is_remainder x x y r /\
              forall r', is_remainder x x y r' -> r' = r.
Proof.
  intros x y Hy. destruct (remainder_spec x y Hy) as (r & E & H).
  exists r. split; [exact E|]. split; [exact H|].
  intros r' H'. exact (is_remainder_unique x x y r' r H' H).
Qed.
Print Assumptions C12_remainder_partial.
Example C12_ex : remainder (-7) 3 = Some (-1). Proof. reflexivity. Qed.

(** C12, the part the manual uses to justify the parsing of unary minus. *)
Theorem C12_remainder_odd :
  forall x y, remainder (- x) y = option_map Z.opp (remainder x y).
Proof. exact remainder_odd. Qed.
Print Assumptions C12_remainder_odd.

(** C12: no value is produced exactly when the divisor is zero. *)
Theorem C12_remainder_zero : forall x y, remainder x y = None <-> y = 0.
Proof. exact remainder_zero. Qed.
Print Assumptions C12_remainder_zero.

(** C12 as the manual states the sign is false of the code: [7 % -3] is [1]
    which has not the sign of [-3]. *)
Theorem C12_lrm_sign_refuted :
  exists x y r, y <> 0 /\ remainder x y = Some r /\ ~ lrm_remainder x y r.
Proof.
  exists 7, (-3), 1. split; [discriminate|]. split; [reflexivity|].
  intros (_ & _ & [H|H]); discriminate.
Qed.
Print Assumptions C12_lrm_sign_refuted.

(** ... but it holds when both operands have the same sign. *)
Theorem C12_lrm_sign_partial :
  forall x y r, y <> 0 -> Z.sgn x = Z.sgn y \/ x = 0 ->
    remainder x y = Some r -> lrm_remainder x y r.
Proof. exact remainder_lrm_same_sign. Qed.
Print Assumptions C12_lrm_sign_partial.
Example C12_lrm_ex : (-3 <> 0) /\ Z.sgn (-7) = Z.sgn (-3) /\ remainder (-7) (-3) = Some (-1).
Proof. repeat split; discriminate. Qed.

(** C13 *)
Theorem C13_floor_division :
  forall x y, y <> 0 ->
    exists d, int_divide x y = Some d /\ is_floor_quotient x y d /\
              forall d', is_floor_quotient x y d' -> d' = d.
Proof.
  intros x y Hy. destruct (int_divide_spec x y Hy) as (d & E & H).
  exists d. split; [exact E|]. split; [exact H|].
  intros d' H'. exact (is_floor_quotient_unique x y d' d H' H).
Qed.
Print Assumptions C13_floor_division.
Example C13_ex : int_divide (-5) 2 = Some (-3) /\ int_divide 5 (-2) = Some (-3) /\ int_divide 5 2 = Some 2.
Proof. repeat split. Qed.

Theorem C13_division_by_zero : forall x y, int_divide x y = None <-> y = 0.
Proof. exact int_divide_zero. Qed.
Print Assumptions C13_division_by_zero.

(** C14 *)
Theorem C14_round_nearest_away :
  forall q n, nearest_away q n <-> n = round_nearest_away q.
Proof.
  intros q n. split.
  - intros H. exact (nearest_away_unique q n _ H (round_nearest_away_spec q)).
  - intros ->. exact (round_nearest_away_spec q).
Qed.
Print Assumptions C14_round_nearest_away.
Example C14_ex : round_nearest_away (5 # 2) = 3 /\ round_nearest_away (-5 # 2) = -3
                 /\ round_nearest_away (49 # 20) = 2.
Proof. repeat split. Qed.

Theorem C14_round_integral : forall z, round_nearest_away (inject_Z z) = z.
Proof. exact round_integral. Qed.
Print Assumptions C14_round_integral.

Theorem C14_round_well_defined :
  forall q1 q2, (q1 == q2)%Q -> round_nearest_away q1 = round_nearest_away q2.
Proof. exact round_compat. Qed.
Print Assumptions C14_round_well_defined.
