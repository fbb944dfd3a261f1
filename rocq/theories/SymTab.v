(** Model of [Symbol_Table] and [Scope], /repo/trlc/ast.py:3396-3808.

    Tables are mutable Python objects that point at each other, so they live
    in a heap and are named by their index.  Names are ASCII (they come from
    identifier tokens, see C03, or are built in); on ASCII [str.lower] is
    [lower]. *)
From Verif Require Import Base.
Open Scope N_scope.

Definition lower (c : char) : char := if (65 <=? c) && (c <=? 90) then c + 32 else c.

(** ast.py:3407-3411 [simplified_name] *)
Definition simplified_name (name : text) : text :=
  filter (fun c => negb (c =? 95)) (map lower name).

Section STAB.
Variable Entity : Type.
Variable name_of : Entity -> text.

(** ast.py:3399-3405; [table] is an OrderedDict from simplified names. *)
Record table := Table {
  parent   : option nat;
  imported : list nat;
  entries  : list (text * Entity)
}.
Definition heap := list table.

Definition dict_get (d : list (text * Entity)) (k : text) : option Entity :=
  match find (fun p => text_eqb (fst p) k) d with
  | Some (_, e) => Some e
  | None => None
  end.

Definition precise_ok (precise : option text) (e : Entity) : bool :=
  match precise with
  | None => true
  | Some p => text_eqb (name_of e) p
  end.

(** ast.py:3509-3531 [contains_raw].  [None]: out of fuel (the Python code
    would not come back from a cycle of tables). *)
Fixpoint contains_raw (fuel : nat) (h : heap) (i : nat) (simple : text) (precise : option text)
  : option bool :=
  match fuel with
  | O => None
  | S f =>
      match nth_error h i with
      | None => None
      | Some tb =>
          match dict_get (entries tb) simple with
          | Some e => Some (precise_ok precise e)
          | None =>
              match parent tb with
              | Some p => contains_raw f h p simple precise
              | None =>
                  (fix any (l : list nat) : option bool :=
                     match l with
                     | [] => Some false
                     | j :: l' =>
                         match contains_raw f h j simple precise with
                         | Some true => Some true
                         | Some false => any l'
                         | None => None
                         end
                     end) (imported tb)
              end
          end
      end
  end.

Definition fuel_of (h : heap) : nat := S (S (List.length h)).

(** ast.py:3533-3543 [contains] *)
Definition contains (h : heap) (i : nat) (name : text) : option bool :=
  contains_raw (fuel_of h) h i (simplified_name name) (Some name).

(** The ways [lookup_direct] and [register] fail; the suggestion made by
    difflib.get_close_matches for unknown names is not modelled. *)
Inductive stab_error :=
| Duplicate (prev : Entity)
| Too_similar (prev : Entity)
| Did_you_mean (prev : Entity)
| Unknown_symbol
| Wrong_class (prev : Entity).

(** ast.py:3659-3676: [while ptr] *)
Inductive found := Found (e : Entity) | NotFound | Loop.
Fixpoint chain_find (fuel : nat) (h : heap) (i : nat) (simple : text) : found :=
  match fuel with
  | O => Loop
  | S f =>
      match nth_error h i with
      | None => Loop
      | Some tb =>
          match dict_get (entries tb) simple with
          | Some e => Found e
          | None => match parent tb with
                    | Some p => chain_find f h p simple
                    | None => NotFound
                    end
          end
      end
  end.

(** ast.py:3659: [for ptr in [self] + self.imported] *)
Fixpoint search (fuel : nat) (h : heap) (ptrs : list nat) (simple : text) : found :=
  match ptrs with
  | [] => NotFound
  | i :: ptrs' => match chain_find fuel h i simple with
                  | NotFound => search fuel h ptrs' simple
                  | r => r
                  end
  end.

Definition imports_of (h : heap) (i : nat) : list nat :=
  match nth_error h i with Some tb => imported tb | None => [] end.

(** ast.py:3595-3692 [lookup_direct] *)
Definition lookup_direct (h : heap) (i : nat) (name : text)
           (required : option (Entity -> bool)) (simplified : bool) : res stab_error Entity :=
  match search (fuel_of h) h (i :: imports_of h i) (simplified_name name) with
  | Found e =>
      if negb simplified && negb (text_eqb (name_of e) name) then Err (Did_you_mean e)
      else match required with
           | Some c => if c e then Ok e else Err (Wrong_class e)
           | None => Ok e
           end
  | NotFound => Err Unknown_symbol
  | Loop => OutOfFuel
  end.

(** ast.py:3545-3593 [lookup_assuming] *)
Definition lookup_assuming (h : heap) (i : nat) (name : text)
           (required : option (Entity -> bool)) : res stab_error (option Entity) :=
  match search (fuel_of h) h (i :: imports_of h i) (simplified_name name) with
  | Found e =>
      if negb (text_eqb (name_of e) name) then Ok None
      else match required with
           | Some c => if c e then Ok (Some e) else Err (Wrong_class e)
           | None => Ok (Some e)
           end
  | NotFound => Ok None
  | Loop => OutOfFuel
  end.

Fixpoint update {A} (l : list A) (i : nat) (x : A) : list A :=
  match l, i with
  | [], _ => []
  | _ :: l', O => x :: l'
  | y :: l', S i' => y :: update l' i' x
  end.

(** ast.py:3476-3503 [register]: the new heap. *)
Definition register (h : heap) (i : nat) (e : Entity) : res stab_error heap :=
  let simple := simplified_name (name_of e) in
  match contains_raw (fuel_of h) h i simple None with
  | None => OutOfFuel
  | Some true =>
      match lookup_direct h i (name_of e) None true with
      | Ok pdef => if text_eqb (name_of pdef) (name_of e)
                   then Err (Duplicate pdef) else Err (Too_similar pdef)
      | Err x => Err x
      | Crash => Crash
      | OutOfFuel => OutOfFuel
      end
  | Some false =>
      match nth_error h i with
      | Some tb => Ok (update h i (Table (parent tb) (imported tb) (entries tb ++ [(simple, e)])))
      | None => OutOfFuel
      end
  end.

(** ast.py:3399-3405 (constructor) and 3472-3474 [make_visible] *)
Definition new_table (h : heap) (par : option nat) : heap := h ++ [Table par [] []].
Definition make_visible (h : heap) (i j : nat) : heap :=
  match nth_error h i with
  | Some tb => update h i (Table (parent tb) (imported tb ++ [j]) (entries tb))
  | None => h
  end.

(** ** Scope, ast.py:3758-3808: a stack of tables, innermost last *)

Definition scope := list nat.

(** ast.py:3770-3776 [Scope.contains] *)
Fixpoint scope_contains_rev (h : heap) (s : list nat) (name : text) : option bool :=
  match s with
  | [] => Some false
  | i :: s' => match contains h i name with
               | Some true => Some true
               | Some false => scope_contains_rev h s' name
               | None => None
               end
  end.
Definition scope_contains (h : heap) (s : scope) (name : text) : option bool :=
  scope_contains_rev h (rev s) name.

(** ast.py:3778-3790 [Scope.lookup] *)
Fixpoint scope_lookup_rev (h : heap) (s : list nat) (bottom : nat) (name : text)
         (required : option (Entity -> bool)) : res stab_error Entity :=
  match s with
  | [] => lookup_direct h bottom name required false
  | i :: s' => match contains h i name with
               | Some true => lookup_direct h i name required false
               | Some false => scope_lookup_rev h s' bottom name required
               | None => OutOfFuel
               end
  end.
Definition scope_lookup (h : heap) (s : scope) (name : text)
           (required : option (Entity -> bool)) : res stab_error Entity :=
  match s with
  | [] => Crash                                      (* assert len(self.scope) >= 1 *)
  | bottom :: s' => scope_lookup_rev h (rev s') bottom name required
  end.
End STAB.
