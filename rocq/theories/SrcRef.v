(** Model of the parts of [Source_Reference] that compute with positions:
    /repo/trlc/lexer.py:69-121. *)
From Verif Require Import Base PyText Lexer.
Open Scope Z_scope.

Section SRCREF.
Variable content : text.

Definition is_nl_at (n : nat) : bool := ceq (nth_error content n) 10.

(** lexer.py:117-120: the loop [for n in range(self.end_pos, 1, -1)]; the
    argument [k] stands for the value [n = k + 1]. *)
Fixpoint end_col_loop (end_pos : Z) (k : nat) : Z :=
  match k with
  | O => end_pos + 1
  | S k' => if is_nl_at (S k) then Z.max (end_pos - Z.of_nat (S k)) 1
            else end_col_loop end_pos k'
  end.

(** /repo/trlc/lexer.py:110-122 [get_end_location]: line and column. *)
Definition get_end_location (r : sref) : Z * Z :=
  let lines_in_between := count_occ N.eq_dec (slice content (sr_start r) (sr_end r)) 10%N in
  (sr_line r + Z.of_nat lines_in_between,
   end_col_loop (sr_end r) (Z.to_nat (sr_end r - 1))).

(** lexer.py:89-93: walking back to the start of the line; the argument [k]
    stands for [n = k - 1].  Returns the text and the final [n]. *)
Fixpoint back (k : nat) (line : text) : text * Z :=
  match k with
  | O => (line, -1)
  | S k' => match nth_error content k' with
            | Some c => if (c =? 10)%N then (line, Z.of_nat k') else back k' (c :: line)
            | None => (line, Z.of_nat k')      (* IndexError; start_pos is in range *)
            end
  end.

(** lexer.py:96-99: walking forward to the end of the line.  Returns the text
    and the number of characters read. *)
Fixpoint forth (rest : text) : text :=
  match rest with
  | c :: rest' => if (c =? 10)%N then [] else c :: forth rest'
  | [] => []
  end.

(** [" " * n] and ["^" * n] for a possibly negative [n] *)
Definition times (c : char) (n : Z) : text := repeat c (Z.to_nat n).

(** /repo/trlc/lexer.py:88-108 [context_lines] *)
Definition context_lines (r : sref) : text * text :=
  let (line0, n0) := back (S (Z.to_nat (sr_start r))) [] in
  let offset := sr_start r - n0 - 1 in
  let tail := forth (skipn (Z.to_nat (sr_start r + 1)) content) in
  let line := line0 ++ tail in
  let n := sr_start r + 1 + Z.of_nat (List.length tail) in
  let maxtrail := n - sr_start r in
  let tlen := sr_end r + 1 - sr_start r in
  let stripped_line := lstrip line in
  let stripped_offset :=
    offset - (Z.of_nat (List.length line) - Z.of_nat (List.length stripped_line)) in
  (stripped_line, times 32%N stripped_offset ++ times 94%N (Z.min tlen maxtrail)).

End SRCREF.
