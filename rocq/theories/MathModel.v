(** Model of /repo/trlc/math.py and of integer/rational division in
    /repo/trlc/ast.py. *)
From Coq Require Import ZArith QArith Qround.
From Verif Require Import Base.
Open Scope Z_scope.

(** /repo/trlc/math.py:25-34 [remainder].  Python's [%] with a positive right
    operand is [Z.modulo]; with 0 it raises ZeroDivisionError (here
    [None]). *)
Definition remainder (lhs rhs : Z) : option Z :=
  if rhs =? 0 then None
  else
    let md := Z.abs lhs mod Z.abs rhs in
    if lhs >=? 0 then Some md else Some (- md).

(** /repo/trlc/math.py:37-43 [round_nearest_away]; [floor]/[ceil] of a
    [Fraction] are [Qfloor]/[Qceiling]. *)
Definition round_nearest_away (value : Q) : Z :=
  if Qle_bool 0 value
  then Qfloor (value + (1 # 2))
  else Qceiling (value - (1 # 2)).

(** The integer part of BINARY DIVIDE, /repo/trlc/ast.py [Binary_Expression
    .evaluate]: a zero divisor is reported (here [None]), otherwise Python's
    [//] which is floor division ([Z.div]). *)
Definition int_divide (lhs rhs : Z) : option Z :=
  if rhs =? 0 then None else Some (lhs / rhs).
