(** The resolution of references after all files are parsed:
    /repo/trlc/ast.py lines 548, 837-840, 981-985, 1076-1080, 1152-1178 and
    3325-3328.

    Python updates the values in place; here a new value is returned.  When
    a reference cannot be resolved the values of that object resolved before
    stay updated; this is not modelled, as nothing looks at them again. *)
From Verif Require Import Base Lexer SymTab Ast Eval ParserBase ParserValue.
Open Scope Z_scope.

(** The results of [f] for all elements, or the first error. *)
Fixpoint each {E A B} (f : A -> res E B) (l : list A) : res E (list B) :=
  match l with
  | [] => Ok []
  | x :: l' => do y <- f x ; do l2 <- each f l' ; Ok (y :: l2)
  end.

Section RESOLVE.
Variable G : types.
Variable objs : list object.
Variable N : names.

(** ast.py: [resolve_references] of the expressions a value can be *)
Fixpoint resolve_value (v : vexpr) : res perr vexpr :=
  let fix each_value (l : list vexpr) : res perr (list vexpr) :=
    match l with
    | [] => Ok []
    | x :: l' => do y <- resolve_value x ; do l2 <- each_value l' ; Ok (y :: l2)
    end in
  let fix each_field (l : list (text * vexpr)) : res perr (list (text * vexpr)) :=
    match l with
    | [] => Ok []
    | (k, x) :: l' => do y <- resolve_value x ; do l2 <- each_field l' ; Ok ((k, y) :: l2)
    end in
  match v with
  | XNull _ | XUnary _ _ _ _ => Ok v                                          (* 548 *)
  | XLit l k refs => do rs <- each_value refs ; Ok (XLit l k rs)              (* 837-840 *)
  | XArr l a vs => do ws <- each_value vs ; Ok (XArr l a ws)                  (* 981-985 *)
  | XTup l u vs => do ws <- each_field vs ; Ok (XTup l u ws)                  (* 1076-1080 *)
  | XRef l a pkg name _ =>                                                    (* 1152-1178 *)
      do r <- resolve_ref G objs N l a pkg name ;
      Ok (XRef l (fst r) pkg name (snd r))
  end.

(** ast.py:3325-3328 [Record_Object.resolve_references] *)
Definition resolve_object (ob : object) : res perr object :=
  do fs <- each (fun kf : text * field =>
                   let '(k, (id, v)) := kf in
                   do v' <- resolve_value v ; Ok (k, (id, v'))) (o_fields ob) ;
  Ok (Object (o_pkg ob) (o_name ob) (o_loc ob) (o_typ ob) fs).
End RESOLVE.
