(** Model of the linter, /repo/trlc/lint.py, without the verification of
    checks ([verify_checks] is False); for [verify_imports] see Imports.v. *)
From Verif Require Import Base Lexer Ast.
Open Scope Z_scope.

(** What [mh.check] is called with, one constructor per message. *)
Inductive finding :=
| F_upper_below (i : nat)            (* 200: upper bound must be at least ... *)
| F_no_sense (i : nat)               (* 205 *)
| F_fixed_one (i : nat)              (* 209 *)
| F_optional (i : nat)               (* 216 *)
| F_union_single (i : nat)           (* 87 *)
| F_union_subtype (i a b : nat)      (* 97: a is a subtype of b *)
| F_separator (u : nat) (sep : text) (* 140 *)
| F_abstract (r : nat).              (* 58 *)

(** lint.py:39-40 and the messages so far *)
Record lstate := LState {
  checked : list ty; exts : list (nat * list nat); found : list finding
}.
Definition lres := res unit.

Definition emit (f : finding) (s : lstate) : lstate := LState (checked s) (exts s) (found s ++ [f]).

Section LINT.
Variable G : types.

(** lint.py:193-222 [verify_array_type] *)
Definition verify_array_type (i : nat) (lo : Z) (hi : option Z) (s : lstate) : lstate :=
  match hi with
  | None => s
  | Some hi =>
      if hi <? lo then emit (F_upper_below i) s
      else if hi =? 0 then emit (F_no_sense i) s
      else if (hi =? 1) && (lo =? 1) then emit (F_fixed_one i) s
      else if (hi =? 1) && (lo =? 0) then emit (F_optional i) s
      else s
  end.

(** ast.py:3063-3072 [iter_sequence] *)
Inductive item := IComp (c : component) | ISep (s : separator).
Fixpoint interleave (cs : list component) (ss : list separator) : list item :=
  match cs, ss with
  | [], _ => []
  | c :: cs', [] => IComp c :: interleave cs' []
  | c :: cs', s :: ss' => IComp c :: ISep s :: interleave cs' ss'
  end.
Definition iter_sequence (ut : tuptype) : list item := interleave (u_comps ut) (u_seps ut).

(** [get_example_value] (ast.py, all types): only whether it returns.  For an
    enumeration with literals it does not: line 3188 asks an integer for its
    name.  Tuple types refer to earlier ones. *)
Fixpoint example (fuel : nat) (a : ty) : res unit unit :=
  match fuel with
  | O => OutOfFuel
  | S n =>
      match a with
      | TInt | TDec | TBool | TStr | TMarkup | TRec _ => Ok tt
      | TUnion _ ms => match ms with [] => Crash | _ => Ok tt end
      | TEnum e => match nth_error (enums G) e with
                   | Some en => match en_lits en with [] => Ok tt | _ => Crash end
                   | None => Crash
                   end
      | TArr _ _ _ el => example n el
      | TTup u =>
          match tup G u with
          | None => Crash
          | Some ut =>
              (fix go (cs : list component) : res unit unit :=
                 match cs with
                 | [] => Ok tt
                 | c :: cs' => do _ <- example n (c_typ c) ; go cs'
                 end) (u_comps ut)
          end
      end
  end.
Definition example_fuel : nat := S (S (S (List.length (tups G) + List.length (tups G)))).

(** the separator text; [Separator.to_string], ast.py:3143 *)
Definition sep_text (s : separator) : text :=
  match s with
  | Sep_at => t "@" | Sep_colon => t ":" | Sep_semicolon => t ";"
  | Sep_word w => w
  end.
Definition bad_sep (s : separator) : bool :=
  text_eqb (sep_text s) (t "x") || text_eqb (sep_text s) (t "b").

(** lint.py:106-150: the loop over the items, with [previous_was_int] and,
    for [previous_was_bad_sep], the separator. *)
Fixpoint tuple_items (u : nat) (items : list item) (was_int : bool) (bad : option text) (s : lstate)
  : res unit lstate :=
  match items with
  | [] => Ok s
  | it :: items' =>
      match bad with
      | Some sep =>
          match it with
          | ISep _ => Crash                                    (* assertion in line 114 *)
          | IComp c =>
              do _ <- (if is_integer (c_typ c) then Ok tt else example example_fuel (c_typ c)) ;
              tuple_items u items' was_int bad (emit (F_separator u sep) s)
          end
      | None =>
          match it with
          | IComp c => if is_integer (c_typ c) then tuple_items u items' true None s
                       else tuple_items u items' false None s
          | ISep sep => if was_int && bad_sep sep then tuple_items u items' was_int (Some (sep_text sep)) s
                        else tuple_items u items' false None s
          end
      end
  end.

(** lint.py:166-179: the table of extensions of abstract types *)
Definition has_key (k : nat) (d : list (nat * list nat)) : bool := existsb (fun p => Nat.eqb (fst p) k) d.
Definition new_key (k : nat) (d : list (nat * list nat)) : list (nat * list nat) :=
  if has_key k d then d else d ++ [(k, [])].
Definition add_to (k r : nat) (d : list (nat * list nat)) : list (nat * list nat) :=
  map (fun p => if Nat.eqb (fst p) k then (fst p, r :: snd p) else p) (new_key k d).

(** the loop in line 174; a parent is declared before its extension *)
Fixpoint mark_up (fuel r anc : nat) (d : list (nat * list nat)) : list (nat * list nat) :=
  match rec G anc with
  | Some rt =>
      if r_abstract rt then
        let d' := add_to anc r d in
        match r_parent rt, fuel with
        | Some p, S f => mark_up f r p d'
        | _, _ => d'
        end
      else d
  | None => d
  end.
Definition mark_abstract (r : nat) (rt : rectype) (d : list (nat * list nat)) : list (nat * list nat) :=
  if r_abstract rt then new_key r d
  else match r_parent rt with
       | Some p => mark_up p r p d
       | None => d
       end.

Definition ty_in (a : ty) (l : list ty) : bool := existsb (ty_eqb a) l.

(** lint.py:92-98: pairs of members *)
Definition subtype_pairs (i : nat) (ms : list nat) : list finding :=
  flat_map (fun '(j, a) =>
    flat_map (fun '(k, b) =>
      if negb (Nat.eqb j k) && negb (Nat.eqb a b) && is_subclass_of G a b
      then [F_union_subtype i a b] else [])
      (combine (seq 0 (List.length ms)) ms))
    (combine (seq 0 (List.length ms)) ms).

(** lint.py:64-101 [verify_type], 103-164 [verify_tuple_type], 166-191
    [verify_record_type].  The components are visited in the order of their
    declaration (the code sorts those of each type by name; only the order of
    messages depends on it). *)
Fixpoint verify_type (fuel : nat) (a : ty) (s : lstate) : res unit lstate :=
  match fuel with
  | O => OutOfFuel
  | S n =>
      let all := fix all (l : list ty) (s : lstate) : res unit lstate :=
        match l with
        | [] => Ok s
        | b :: l' => do s' <- verify_type n b s ; all l' s'
        end in
      if ty_in a (checked s) then Ok s
      else
        let s := LState (a :: checked s) (exts s) (found s) in
        match a with
        | TRec r =>
            match rec G r with
            | None => Crash
            | Some rt =>
                let s := LState (checked s) (mark_abstract r rt (exts s)) (found s) in
                all (map c_typ (all_components G r)) s
            end
        | TTup u =>
            match tup G u with
            | None => Crash
            | Some ut =>
                do s <- tuple_items u (iter_sequence ut) false None s ;
                all (map c_typ (u_comps ut)) s
            end
        | TArr i lo hi _ => Ok (verify_array_type i lo hi s)
        | TUnion i ms =>
            let s := if Nat.eqb (List.length ms) 1 then emit (F_union_single i) s else s in
            let s := LState (checked s) (exts s) (found s ++ subtype_pairs i ms) in
            all (map TRec ms) s
        | _ => Ok s
        end
  end.

(** Bound on the nesting of [verify_type]: all types that can be visited. *)
Definition component_types : list ty :=
  flat_map (fun rt => map c_typ (r_comps rt)) (recs G) ++ flat_map (fun ut => map c_typ (u_comps ut)) (tups G).
Definition members_of (a : ty) : list ty := match a with TUnion _ ms => map TRec ms | _ => [] end.
Definition universe (order : list ty) : list ty :=
  let l := order ++ component_types in l ++ flat_map members_of l.

Fixpoint verify_all (fuel : nat) (l : list ty) (s : lstate) : res unit lstate :=
  match l with
  | [] => Ok s
  | a :: l' => do s' <- verify_type fuel a s ; verify_all fuel l' s'
  end.

(** lint.py:52-60 *)
Fixpoint abstract_leaves (order : list ty) (s : lstate) : res unit lstate :=
  match order with
  | [] => Ok s
  | TRec r :: order' =>
      match rec G r with
      | None => Crash
      | Some rt =>
          if r_abstract rt then
            match find (fun p => Nat.eqb (fst p) r) (exts s) with
            | None => Crash                                      (* KeyError *)
            | Some (_, []) => abstract_leaves order' (emit (F_abstract r) s)
            | Some (_, _ :: _) => abstract_leaves order' s
            end
          else abstract_leaves order' s
      end
  | _ :: order' => abstract_leaves order' s
  end.

(** lint.py:42-62 [perform_sanity_checks]; [order] are the declared types in
    the order of the symbol tables. *)
Definition perform_sanity_checks (order : list ty) : res unit lstate :=
  do s <- verify_all (S (List.length (universe order))) order (LState [] [] []) ;
  abstract_leaves order s.
End LINT.
