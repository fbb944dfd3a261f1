(** Iteration over record objects: /repo/trlc/ast.py lines 3425-3464. *)
From Verif Require Import Base Lexer SymTab Ast Eval ParserBase ParserDecl Process.
Open Scope Z_scope.

(** 3453 [iter_record_objects]: the tables are visited in the order in which
    names were registered. *)
Definition table_objects (d : ntable) : list nat :=
  flat_map (fun x => match snd x with N_obj o => [o] | _ => [] end) d.
Definition iter_record_objects (v : env) : list nat :=
  flat_map (fun x => match snd x with
                     | N_pkg p => table_objects (nth p (v_pkgs v) [])
                     | N_obj o => [o]
                     | _ => []
                     end) (v_stab v).

(** What [iter_record_objects_by_section] yields: names of files, sections
    with their level, objects with their level. *)
Inductive event : Type :=
| Ev_file (f : Z)
| Ev_section (name : text) (level : nat)
| Ev_object (o : nat) (level : nat).

(** The attributes [trlc_files] and [section_names], which outlive the
    iteration.  Sections are compared by identity. *)
Record visited := Visited { vi_files : list Z; vi_sections : list sect }.
Definition fresh_table : visited := Visited [] [].
Definition sref_eqb (a b : sref) : bool :=
  (sr_line a =? sr_line b) && (sr_col a =? sr_col b) && (sr_start a =? sr_start b) && (sr_end a =? sr_end b).
Definition same_section (a b : sect) : bool :=
  (l_file (fst a) =? l_file (fst b)) && sref_eqb (l_ref (fst a)) (l_ref (fst b)) && text_eqb (snd a) (snd b).

(** 3442-3445 *)
Fixpoint enter_sections (level : nat) (path : list sect) (seen : list sect) : list event * list sect :=
  match path with
  | [] => ([], seen)
  | s :: path' =>
      if existsb (same_section s) seen then enter_sections (S level) path' seen
      else let '(evs, seen') := enter_sections (S level) path' (seen ++ [s]) in (Ev_section (snd s) level :: evs, seen')
  end.
(** 3434-3449, one object; [path] is empty if [section] is None. *)
Definition visit (o : nat) (file : Z) (path : list sect) (vi : visited) : list event * visited :=
  let new_file := negb (existsb (Z.eqb file) (vi_files vi)) in
  let files := if new_file then vi_files vi ++ [file] else vi_files vi in
  let '(secs, seen) := enter_sections 0 path (vi_sections vi) in
  ((if new_file then [Ev_file file] else []) ++ secs ++ [Ev_object o (List.length path - 1)], Visited files seen).
Fixpoint visit_all (v : env) (os : list nat) (vi : visited) : list event * visited :=
  match os with
  | [] => ([], vi)
  | o :: os' =>
      match nth_error (v_objs v) o with
      | None => visit_all v os' vi     (* tables have no other objects *)
      | Some ob =>
          let '(evs, vi1) := visit o (l_file (o_loc ob)) (nth o (v_secs v) []) vi in
          let '(evs', vi2) := visit_all v os' vi1 in (evs ++ evs', vi2)
      end
  end.
(** 3425 *)
Definition iter_record_objects_by_section (v : env) (vi : visited) : list event * visited := visit_all v (iter_record_objects v) vi.
