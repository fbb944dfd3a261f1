(** Rendering of counterexamples: /repo/trlc/vcg.py lines 415-535. *)
From Coq Require Import QArith Qreduction.
From Verif Require Import Base Lexer SymTab Ast Eval.
Open Scope Z_scope.

(** Python's [str] for integers. *)
Fixpoint digits_steps (fuel : nat) (z : Z) : text :=
  match fuel with
  | O => []
  | S f => (if z <? 10 then [] else digits_steps f (z / 10)) ++ [Z.to_N (48 + z mod 10)]
  end.
Definition str_nonneg (z : Z) : text := digits_steps (S (Z.to_nat (Z.log2 z))) z.
Definition str_int (z : Z) : text := if z <? 0 then t "-" ++ str_nonneg (- z) else str_nonneg z.

(** 445-453: remove the factors 2 and 5; the result is false if another factor
    remains.  The fuel bounds the number of divisions. *)
Fixpoint strip (fuel : nat) (tmp : Z) : res unit bool :=
  if 1 <? tmp then
    match fuel with
    | O => OutOfFuel
    | S f => if tmp mod 2 =? 0 then strip f (tmp / 2)
             else if tmp mod 5 =? 0 then strip f (tmp / 5)
             else Ok false
    end
  else Ok true.
(** 462-465 *)
Fixpoint fraction_digits (fuel : nat) (i j : Z) : res unit text :=
  if 0 <? i then
    match fuel with
    | O => OutOfFuel
    | S f => do r <- fraction_digits f (i * 10 mod j) j ; Ok (str_int (i * 10 / j) ++ r)
    end
  else Ok [].
Definition steps_for (den : Z) : nat := S (Z.to_nat (Z.log2 den)).
(** 441-472 *)
Definition fraction_to_decimal_string (num den : Z) : res unit text :=
  if negb (1 <=? den) then Crash
  else
    do exact <- (if 2 <? den then strip (steps_for den) den else Ok true) ;
    if exact then
      do f <- (if 0 <? Z.abs num mod den then
                 do r <- fraction_digits (steps_for den) (Z.abs num mod den) den ; Ok (t "." ++ r)
               else Ok (t ".0")) ;
      let rv := str_int (Z.abs num / den) ++ f in
      Ok (if num <? 0 then t "-" ++ rv else rv)
    else Ok (str_int num ++ t " / " ++ str_int den).

(** What the solver gives for a component.  [S_other]: any number that is not
    a fraction.  In tuples, each field has a flag and, if it is set, a value
    (entries ["…valid"] and ["…value"]). *)
Inductive sval : Type :=
| S_int (z : Z)
| S_frac (q : Q)
| S_other
| S_bool (b : bool)
| S_text (s : text)
| S_list (vs : list sval)
| S_dict (d : list (text * (bool * sval))).

(** ast.py 3064 [iter_sequence] *)
Fixpoint sequence_from (cs : list component) (seps : list separator) : list (component + separator) :=
  match cs with
  | [] => []
  | c :: cs' => inl c :: match seps with
                         | [] => sequence_from cs' []
                         | s :: seps' => inr s :: sequence_from cs' seps'
                         end
  end.
Definition iter_sequence (ut : tuptype) : list (component + separator) := sequence_from (u_comps ut) (u_seps ut).
(** 521-525 *)
Definition sep_text (s : separator) : text :=
  match s with Sep_at => t "@" | Sep_colon => t ":" | Sep_semicolon => t ";" | Sep_word w => w end.
(** [str.join] *)
Fixpoint join (sep : text) (parts : list text) : text :=
  match parts with
  | [] => []
  | [p] => p
  | p :: parts' => p ++ sep ++ join sep parts'
  end.
(** [list.pop]: IndexError for the empty list *)
Definition pop {A} (l : list A) : res unit (list A) := match l with [] => Crash | _ => Ok (removelast l) end.

Section RENDER.
Variable G : types.
Variable package_name : nat -> text.
(** package of the type that is verified *)
Variable own : nat.

(** 499-511 *)
Definition instance_id (v : Z) : Z := if v <? 0 then v * -2 - 1 else v * 2.

(** 513-526 *)
Fixpoint tuple_parts (show : ty -> sval -> res unit text) (items : list (component + separator)) (d : list (text * (bool * sval)))
    (parts : list text) : res unit (list text) :=
  match items with
  | [] => Ok parts
  | inl c :: items' =>
      match assoc (c_name c) d with
      | None => Crash
      | Some (valid, x) =>
          if c_opt c && negb valid then pop parts
          else do s <- show (c_typ c) x ; tuple_parts show items' d (parts ++ [s])
      end
  | inr s :: items' => tuple_parts show items' d (parts ++ [sep_text s])
  end.
Fixpoint show_all (show : sval -> res unit text) (vs : list sval) : res unit (list text) :=
  match vs with
  | [] => Ok []
  | v :: vs' => do s <- show v ; do ss <- show_all show vs' ; Ok (s :: ss)
  end.
(** 474-541; the fuel bounds the nesting of types. *)
Fixpoint value_to_trlc (fuel : nat) (typ : ty) (v : sval) : res unit text :=
  match fuel with
  | O => OutOfFuel
  | S f =>
      match typ, v with
      | TInt, S_int z => Ok (str_int z)
      | TDec, S_frac q => fraction_to_decimal_string (Qnum (Qred q)) (QDen (Qred q))
      | TDec, S_other => Ok (t "/* unable to generate precise value */")
      | TBool, S_bool b => Ok (if b then t "true" else t "false")
      | TEnum e, S_text s => match nth_error (enums G) e with
                             | Some en => Ok (en_name en ++ t "." ++ s)
                             | None => Crash
                             end
      | (TStr | TMarkup), S_text s =>
          Ok (if existsb (N.eqb 10) s then t "'''" ++ s ++ t "'''" else t """" ++ s ++ t """")
      | TRec r, S_int z => match rec G r with
                           | Some rt => Ok ((if Nat.eqb (r_pkg rt) own then [] else package_name (r_pkg rt) ++ t ".") ++
                                            r_name rt ++ t "_instance_" ++ str_int (instance_id z))
                           | None => Crash
                           end
      | TUnion _ _, S_int z => Ok (t "instance_" ++ str_int (instance_id z))
      | TTup u, S_dict d => match tup G u with
                            | Some ut =>
                                do parts <- tuple_parts (value_to_trlc f) (iter_sequence ut) d [] ;
                                Ok (match u_seps ut with
                                    | [] => t "(" ++ join (t ", ") parts ++ t ")"
                                    | _ => join [] parts
                                    end)
                            | None => Crash
                            end
      | TArr _ _ _ el, S_list vs => do parts <- show_all (value_to_trlc f el) vs ; Ok (t "[" ++ join (t ", ") parts ++ t "]")
      | _, _ => Crash                          (* not a value of the type *)
      end
  end.
Definition rendered : ty -> sval -> res unit text := value_to_trlc (S (S (List.length (tups G)))).
End RENDER.
