(** Model of user-defined checks: [Check.perform] and its callers,
    /repo/trlc/ast.py and /repo/trlc/trlc.py:459-479. *)
From Verif Require Import Base Lexer Ast Eval.
Open Scope Z_scope.

(** What is passed to the message handler: a user warning or error (424-434),
    or an error of the evaluation, which is always fatal. *)
Inductive cmsg :=
| M_warning (l : loc) (message : text) (extra : option text)
| M_error (l : loc) (message : text) (extra : option text) (fatal : bool)
| M_system (e : error).

(** How a call ends: with a result, with a [TRLC_Error], or with any other
    exception. *)
Inductive ending (A : Type) := Returned (a : A) | Raised | Broken.
Arguments Returned {A} a.
Arguments Raised {A}.
Arguments Broken {A}.

(** A computation that emits messages. *)
Definition run (A : Type) : Type := (list cmsg * ending A)%type.
Definition ret {A} (a : A) : run A := ([], Returned a).
Definition seq {A B} (r : run A) (k : A -> run B) : run B :=
  match r with
  | (ms, Returned a) => let '(ms', e) := k a in (ms ++ ms', e)
  | (ms, Raised) => (ms, Raised)
  | (ms, Broken) => (ms, Broken)
  end.

Section CHECKS.
Variable W : world.
Variable G : types.

(** ast.py:378-390 [Check.get_real_location]; [fields] never contains None
    when checks are performed.  A missing key is a [KeyError]. *)
Definition get_real_location (c : check) (l : loc) (fields : list (text * vexpr)) : option loc :=
  match ck_anchor c with
  | None => Some l
  | Some a => match assoc a fields with Some v => Some (x_loc v) | None => None end
  end.

(** ast.py:392-433 [Check.perform] on an object or tuple at [l] *)
Definition perform (c : check) (l : loc) (fields : list (text * vexpr)) : run bool :=
  match evaluate W (Some fields) (ck_expr c) with
  | Ok v =>
      match v_val v with
      | None =>
          match get_real_location c l fields with
          | Some l' => ([M_system (l', P_check_null)], Raised)
          | None => ([], Broken)
          end
      | Some (PBool true, _) => ret true
      | Some (PBool false, _) =>
          match get_real_location c l fields with
          | Some l' =>
              match ck_sev c with
              | Sev_warning => ([M_warning l' (ck_msg c) (ck_extra c)], Returned true)
              | Sev_error => ([M_error l' (ck_msg c) (ck_extra c) false], Returned false)
              | Sev_fatal => ([M_error l' (ck_msg c) (ck_extra c) true], Raised)
              end
          | None => ([], Broken)
          end
      | Some _ => ([], Broken)                       (* assertion in line 418 *)
      end
  | Err e => if internal (snd e) then ([], Broken) else ([M_system e], Raised)
  | Crash | OutOfFuel => ([], Broken)
  end.

(** The loops "for check in ...: if not check.perform(...): ok = False",
    ast.py:3100-3102 and 3349-3353 *)
Fixpoint perform_list (cs : list check) (l : loc) (fields : list (text * vexpr)) (ok : bool) : run bool :=
  match cs with
  | [] => ret ok
  | c :: cs' => seq (perform c l fields) (fun r => perform_list cs' l fields (ok && r))
  end.

(** [perform_type_checks]: ast.py:2403-2407 [Type], 2565-2573 [Array_Type],
    2660-2668 [Union_Type], 3094-3107 [Tuple_Type] *)
Fixpoint perform_type_checks (a : ty) (v : vexpr) : run bool :=
  match a with
  | TTup u =>
      match v with
      | XTup l _ vs =>
          match tup G u with
          | Some ut => perform_list (u_checks ut) l vs true
          | None => ([], Broken)
          end
      | XNull _ => ret true
      | _ => ([], Broken)
      end
  | TArr _ _ _ el =>
      match v with
      | XArr _ _ vs =>
          (fix all (vs : list vexpr) : run bool :=
             match vs with
             | [] => ret true
             | x :: vs' =>
                 seq (perform_type_checks el x) (fun r => if r then all vs' else ret false)
             end) vs
      | XNull _ => ret true
      | _ => ([], Broken)
      end
  | _ => ret true
  end.

Definition fields_of (o : object) : list (text * vexpr) :=
  map (fun '(k, (_, v)) => (k, v)) (o_fields o).

(** first loop of [perform_checks], ast.py:3339-3343 *)
Fixpoint component_checks (cs : list component) (fields : list (text * vexpr)) (ok : bool) : run bool :=
  match cs with
  | [] => ret ok
  | c :: cs' =>
      match assoc (c_name c) fields with
      | Some v => seq (perform_type_checks (c_typ c) v)
                      (fun r => component_checks cs' fields (ok && r))
      | None => ([], Broken)
      end
  end.

(** ast.py:3330-3355 [Record_Object.perform_checks] *)
Definition perform_checks (o : object) : run bool :=
  seq (component_checks (all_components G (o_typ o)) (fields_of o) true)
      (fun ok => perform_list (iter_checks G (o_typ o)) (o_loc o) (fields_of o) ok).

(** trlc.py:468-479 [Source_Manager.perform_checks], over the objects of all
    packages in order *)
Fixpoint perform_all (os : list object) (ok : bool) : run bool :=
  match os with
  | [] => ret ok
  | o :: os' =>
      match perform_checks o with
      | (ms, Returned r) => seq (ms, Returned tt) (fun _ => perform_all os' (ok && r))
      | (ms, Raised) => seq (ms, Returned tt) (fun _ => perform_all os' false)
      | (ms, Broken) => (ms, Broken)
      end
  end.
End CHECKS.
