(** The Python API for record objects: /repo/trlc/ast.py lines 3274-3296
    [fully_qualified_name] and [to_python_dict], with the methods
    [to_python_object] of values (628, 685, 733, 781, 834, 875, 923, 987, 1082,
    1179, 1386). *)
From Coq Require Import QArith Qabs.
From Verif Require Import Base Lexer SymTab Ast Eval ParserBase ParserDecl Process.
Open Scope Z_scope.

(** Python objects.  [PyFloat q] is the double nearest to [q]; rounding itself
    is not modelled, and neither is the sign of zero. *)
Inductive pyobj : Type :=
| PyNone | PyInt (z : Z) | PyFloat (q : Q) | PyStr (s : text) | PyBool (b : bool)
| PyList (xs : list pyobj)
| PyDict (xs : list (text * pyobj)).

(** [float] of a fraction is the quotient of two integers, which raises
    OverflowError if it is not below the largest double by rounding. *)
Definition float_overflow (q : Q) : bool := (2 ^ 1024 - 2 ^ 970) * Z.pos (Qden q) <=? Z.abs (Qnum q).
Definition py_float (q : Q) : res unit pyobj := if float_overflow q then Crash else Ok (PyFloat q).
(** Unary minus; TypeError if not a number *)
Definition py_minus (x : pyobj) : res unit pyobj :=
  match x with
  | PyInt z => Ok (PyInt (- z))
  | PyFloat q => Ok (PyFloat (- q))
  | PyBool b => Ok (PyInt (- Z.b2z b))
  | _ => Crash
  end.

(** 3274 *)
Definition fully_qualified_name (v : env) (ob : object) : text := package_name (v_stab v) (o_pkg ob) ++ t "." ++ o_name ob.

Definition literal_object (k : lit) : res unit pyobj :=
  match k with
  | LInt z => Ok (PyInt z)          (* 733 *)
  | LDec q => py_float q            (* 781 *)
  | LStr s _ => Ok (PyStr s)        (* 834 *)
  | LBool b => Ok (PyBool b)        (* 875 *)
  | LEnum _ n => Ok (PyStr n)       (* 923 *)
  end.
Fixpoint to_python_object (v : env) (x : vexpr) : res unit pyobj :=
  match x with
  | XNull _ => Ok PyNone
  | XLit _ k _ => literal_object k
  | XUnary _ _ op y =>              (* 1386 *)
      match op with
      | U_minus => do p <- to_python_object v y ; py_minus p
      | U_plus => to_python_object v y
      | _ => Crash
      end
  | XArr _ _ xs =>                  (* 987 *)
      do ps <- (fix go (xs : list vexpr) : res unit (list pyobj) :=
                  match xs with
                  | [] => Ok []
                  | x :: xs' => do p <- to_python_object v x ; do ps <- go xs' ; Ok (p :: ps)
                  end) xs ;
      Ok (PyList ps)
  | XTup _ _ xs =>                  (* 1082 *)
      do ps <- (fix go (xs : list (text * vexpr)) : res unit (list (text * pyobj)) :=
                  match xs with
                  | [] => Ok []
                  | (k, x) :: xs' => do p <- to_python_object v x ; do ps <- go xs' ; Ok ((k, p) :: ps)
                  end) xs ;
      Ok (PyDict ps)
  | XRef _ _ _ _ tgt =>             (* 1179 *)
      match tgt with
      | Some o => match nth_error (v_objs v) o with Some ob => Ok (PyStr (fully_qualified_name v ob)) | None => Crash end
      | None => Crash
      end
  end.
(** 3282 *)
Fixpoint to_python_fields (v : env) (fs : list (text * field)) : res unit (list (text * pyobj)) :=
  match fs with
  | [] => Ok []
  | (k, (_, x)) :: fs' => do p <- to_python_object v x ; do ps <- to_python_fields v fs' ; Ok ((k, p) :: ps)
  end.
Definition to_python_dict (v : env) (ob : object) : res unit (list (text * pyobj)) := to_python_fields v (o_fields ob).
