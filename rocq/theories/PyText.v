(** The Python [str] operations the lexer relies on. *)
From Coq Require Import QArith.
From Verif Require Import Base.
Open Scope N_scope.

(** Python [str.isspace] for one character (Unicode White_Space property as
    implemented by CPython: bidirectional type WS, B, S or category Zs). *)
Definition is_space (c : char) : bool :=
  ((9 <=? c) && (c <=? 13)) || ((28 <=? c) && (c <=? 32)) || (c =? 133) || (c =? 160)
  || (c =? 5760) || ((8192 <=? c) && (c <=? 8202)) || (c =? 8232) || (c =? 8233)
  || (c =? 8239) || (c =? 8287) || (c =? 12288).

(** Line boundaries recognised by Python [str.splitlines] (carriage return
    followed by line feed counts as one boundary, see [splitlines]). *)
Definition is_linebreak (c : char) : bool :=
  ((10 <=? c) && (c <=? 13)) || ((28 <=? c) && (c <=? 30)) || (c =? 133)
  || (c =? 8232) || (c =? 8233).

Fixpoint lstrip (s : text) : text :=
  match s with
  | [] => []
  | c :: s' => if is_space c then lstrip s' else s
  end.

Definition rstrip (s : text) : text := rev (lstrip (rev s)).

Definition strip (s : text) : text := rstrip (lstrip s).

(** [str.splitlines()] without keeping the line ends.  [acc] is the current
    line, reversed. *)
Fixpoint splitlines_aux (acc : text) (s : text) : list text :=
  match s with
  | [] => match acc with [] => [] | _ => [rev acc] end
  | c :: s' =>
      if is_linebreak c then
        match s' with
        | d :: s'' => if (c =? 13) && (d =? 10)
                      then rev acc :: splitlines_aux [] s''
                      else rev acc :: splitlines_aux [] s'
        | [] => rev acc :: splitlines_aux [] s'
        end
      else splitlines_aux (c :: acc) s'
  end.
Definition splitlines (s : text) : list text := splitlines_aux [] s.

(** [s.replace('\\"', '"')] *)
Fixpoint unescape (s : text) : text :=
  match s with
  | [] => []
  | c :: s' =>
      match s' with
      | d :: s'' => if (c =? 92) && (d =? 34) then d :: unescape s''
                    else c :: unescape s'
      | [] => [c]
      end
  end.

(** [s.replace("_", "")] *)
Definition drop_underscores (s : text) : text :=
  filter (fun c => negb (c =? 95)) s.

Fixpoint starts_with (p s : text) : bool :=
  match p, s with
  | [], _ => true
  | x :: p', y :: s' => (x =? y) && starts_with p' s'
  | _ :: _, [] => false
  end.

Definition ends_with (p s : text) : bool := starts_with (rev p) (rev s).

(** [s[:-n]] *)
Definition drop_last (n : nat) (s : text) : text := firstn (List.length s - n) s.

(** Value of one digit in bases up to 16 (as accepted by [int]). *)
Definition digit_value (c : char) : Z :=
  if (48 <=? c) && (c <=? 57) then Z.of_N (c - 48)
  else if (97 <=? c) && (c <=? 102) then Z.of_N (c - 87)
  else if (65 <=? c) && (c <=? 70) then Z.of_N (c - 55)
  else 0%Z.

(** [int(s, base)] on a text of digits. *)
Definition py_int (base : Z) (s : text) : Z :=
  fold_left (fun acc c => (acc * base + digit_value c)%Z) s 0%Z.

(** Split at the first full stop. *)
Fixpoint split_dot (s : text) : text * text :=
  match s with
  | [] => ([], [])
  | c :: s' => if c =? 46 then ([], s')
               else let (a, b) := split_dot s' in (c :: a, b)
  end.

(** [Fraction("ddd.ddd")], in lowest terms. *)
Definition py_fraction (s : text) : Q :=
  let (a, b) := split_dot s in
  Qred (Qmake (py_int 10 (a ++ b)) (Z.to_pos (10 ^ Z.of_nat (List.length b)))).
