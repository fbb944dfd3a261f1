(** Model of the verification of checks, /repo/trlc/vcg.py.

    For every record and tuple type the code builds a graph of assumptions and
    goals, hands it to the library PyVCG, and asks an SMT solver about every
    goal on every path that leads to it.  Here a graph is represented by what
    the library makes of it: the attribute [start] is the list of all paths
    from the first node to the current one, and a goal is recorded with each of
    these paths.  The library also assumes a goal in what comes after it.

    Terms of the solver's language keep only what the code builds.  Declarations
    of sorts and functions are left out: a sort is represented by the TRLC type
    it is made from ([tr_type], 674-744). *)
From Coq Require Import Qcanon Qabs.
From Verif Require Import Base Lexer MathModel MathProofs Ast Eval TypesProofs.
Open Scope Z_scope.

(** ** Terms *)

(** Uninterpreted functions that map a reference to a record, 1535-1557. *)
Inductive uf := F_record (r : nat) | F_union (ms : list nat).
Inductive cmp := C_eq | C_lt | C_leq | C_gt | C_geq.
Inductive num1 := N_neg | N_abs.
Inductive num2 := N_add | N_sub | N_mul | N_div | N_rem.
Inductive strpred := P_contains | P_prefixof | P_suffixof.

Inductive term :=
| T_val (n : text) | T_ok (n : text)                 (* constants of a component, 552-558 *)
| T_tmp (n : nat)                                    (* tmp.%u, also bound variables, 126-128 *)
| T_lit (k : lit)
| T_not (a : term)
| T_and (a b : term) | T_or (a b : term) | T_implies (a b : term) | T_xor (a b : term)
| T_cmp (op : cmp) (a b : term)
| T_num1 (real : bool) (op : num1) (a : term)
| T_num2 (real : bool) (op : num2) (a b : term)
| T_strlen (a : term) | T_seqlen (a : term)
| T_concat (a b : term)
| T_strpred (op : strpred) (a b : term)
| T_matches (a : term) (p : text)
| T_index (el : ty) (a i : term)
| T_member (s x : term)
| T_to_real (a : term) | T_to_int (a : term)
| T_ite (c a b : term)
| T_value (a : term) (n : text) | T_valid (a : term) (n : text)   (* record access, ".value" and ".valid" *)
| T_deref (f : uf) (a : term)
| T_quant (universal : bool) (n : nat) (body : term).

Definition T_true : term := T_lit (LBool true).
Definition T_false : term := T_lit (LBool false).
Definition T_int (z : Z) : term := T_lit (LInt z).
Definition is_static_true (a : term) : bool := match a with T_lit (LBool b) => b | _ => false end.
Definition is_static_false (a : term) : bool := match a with T_lit (LBool b) => negb b | _ => false end.
(** Conjunctions and disjunctions of several terms *)
Fixpoint T_all (l : list term) : term := match l with [] => T_true | [a] => a | a :: l' => T_and a (T_all l') end.
Fixpoint T_any (l : list term) : term := match l with [] => T_false | [a] => a | a :: l' => T_or a (T_any l') end.

(** ** Paths and goals *)
Inductive stmt :=
| D_fresh (n : nat)                  (* declaration of an integer without value *)
| D_def (n : nat) (a : term)         (* declaration with a value *)
| D_assert (a : term).
(** The latest statement comes first. *)
Definition path := list stmt.

(** vcg.py:60-71 [Feedback], with a number because the code compares them by
    identity *)
Inductive kind := K_null | K_zero | K_index | K_always_true.
Record feedback := Feedback { fb_id : nat; fb_loc : loc; fb_kind : kind }.
Definition expect_unsat (f : feedback) : bool := match fb_kind f with K_always_true => false | _ => true end.
Record vc := VC { vc_path : path; vc_goal : term; vc_feedback : feedback }.

Record vst := Vst { s_tmp : nat; s_fb : nat; s_start : list path; s_vcs : list vc }.

(** [Err l] is the exception [Unsupported]. *)
Definition vm (A : Type) : Type := vst -> res loc (A * vst).
Definition vret {A} (a : A) : vm A := fun s => Ok (a, s).
Definition vbind {A B} (m : vm A) (k : A -> vm B) : vm B :=
  fun s => do (a, s') <- m s ; k a s'.
Definition vlift {A} (r : res loc A) : vm A := fun s => do a <- r ; Ok (a, s).
Notation "'let#' x := m 'in' k" := (vbind m (fun x => k)) (at level 200, x pattern, m at level 100, k at level 200).

(** 126-128 *)
Definition new_temp : vm nat := fun s => Ok (s_tmp s, Vst (Datatypes.S (s_tmp s)) (s_fb s) (s_start s) (s_vcs s)).
Definition add (d : stmt) : vm unit :=
  fun s => Ok (tt, Vst (s_tmp s) (s_fb s) (map (cons d) (s_start s)) (s_vcs s)).
(** 279-288, 290-306 *)
Definition attach_assumption (a : term) : vm unit := add (D_assert a).
Definition attach_temp (n : nat) (a : term) : vm unit := add (D_def n a).
Definition get_start : vm (list path) := fun s => Ok (s_start s, s).
Definition set_start (p : list path) : vm unit := fun s => Ok (tt, Vst (s_tmp s) (s_fb s) p (s_vcs s)).

(** One goal of a node; the goals of one node get a [Feedback] each. *)
Definition goal (emit advance : bool) (k : kind) (l : loc) (a : term) : vm unit :=
  if emit then
    fun s => Ok (tt, Vst (s_tmp s) (Datatypes.S (s_fb s)) (if advance then map (cons (D_assert a)) (s_start s) else s_start s)
                         (s_vcs s ++ map (fun p => VC p a (Feedback (s_fb s) l k)) (s_start s)))
  else vret tt.
(** 165-183 *)
Definition attach_validity_check (emit : bool) (a : term) (l : loc) : vm unit :=
  if is_static_true a then vret tt else goal emit true K_null l a.
(** 260-277 *)
Definition attach_feasability_check (emit : bool) (a : term) (l : loc) : vm unit := goal emit false K_always_true l a.
Fixpoint attach_goals (emit : bool) (gs : list (kind * term)) (l : loc) : vm unit :=
  match gs with
  | [] => vret tt
  | (k, a) :: gs' => let# _ := goal emit true k l a in attach_goals emit gs' l
  end.

(** A value, which is missing for the null literal (789), and whether it is
    valid. *)
Definition tval := (option term * term)%type.
Definition some_value (v : option term) : res loc term := match v with Some a => Ok a | None => Crash end.
(** The attributes [constants], [qe_vars], [bound_vars] and [tuple_base]: what
    names stand for. *)
Definition tenv := list (text * (term * term)).

Section VCG.
Variable G : types.
Variable W : world.          (* for the evaluation of static expressions, 1002 and 1020 *)

(** ** Operators *)

(** 854-894 *)
Definition unary_term (op : unop) (a : option ty) (x : term) : res loc term :=
  match op with
  | U_minus => match a with Some TInt => Ok (T_num1 false N_neg x) | Some TDec => Ok (T_num1 true N_neg x) | _ => Crash end
  | U_plus => Ok x
  | U_not => Ok (T_not x)
  | U_abs => match a with Some TInt => Ok (T_num1 false N_abs x) | Some TDec => Ok (T_num1 true N_abs x) | _ => Crash end
  | U_strlen => Ok (T_strlen x)
  | U_arrlen => Ok (T_seqlen x)
  | U_todec => Ok (T_to_real x)
  | U_toint => Ok (T_to_int x)
  end.

(** 185-258 and their uses in 942, 959 and 1011: the goals of an operator *)
Definition op_goals (op : binop) (a : option ty) (x y : term) : list (kind * term) :=
  match op with
  | B_div => match a with
             | Some TInt => [(K_zero, T_not (T_cmp C_eq y (T_int 0)))]
             | Some TDec => [(K_zero, T_not (T_cmp C_eq y (T_lit (LDec 0))))]
             | _ => []
             end
  | B_rem => match a with Some TInt => [(K_zero, T_not (T_cmp C_eq y (T_int 0)))] | _ => [] end
  | B_index => [(K_index, T_cmp C_geq y (T_int 0)); (K_index, T_cmp C_lt y (T_seqlen x))]
  | _ => []
  end.

Definition arith_term (op : binop) (a : option ty) (x y : term) : res loc term :=
  match a with
  | Some (TStr | TMarkup) => match op with B_plus => Ok (T_concat x y) | _ => Crash end
  | Some TInt =>
      match op with
      | B_plus => Ok (T_num2 false N_add x y)
      | B_minus => Ok (T_num2 false N_sub x y)
      | B_times => Ok (T_num2 false N_mul x y)
      | B_div => Ok (T_num2 false N_div x y)
      | _ => Ok (T_num2 false N_rem x y)
      end
  | Some TDec =>
      match op with
      | B_plus => Ok (T_num2 true N_add x y)
      | B_minus => Ok (T_num2 true N_sub x y)
      | B_times => Ok (T_num2 true N_mul x y)
      | B_div => Ok (T_num2 true N_div x y)
      | _ => Crash
      end
  | _ => Crash
  end.

(** the loop in 1030-1041 *)
Fixpoint power_term (real : bool) (x : term) (n : nat) : term :=
  match n with
  | O => x
  | Datatypes.S n' => T_num2 real N_mul (power_term real x n') x
  end.

(** 926-1044; [b] is the right operand *)
Definition binary_term (l : loc) (op : binop) (ta : option ty) (b : expr) (x y : term) : res loc term :=
  match op with
  | B_xor => Ok (T_xor x y)
  | B_plus | B_minus | B_times | B_div | B_rem => arith_term op ta x y
  | B_lt => Ok (T_cmp C_lt x y)
  | B_leq => Ok (T_cmp C_leq x y)
  | B_gt => Ok (T_cmp C_gt x y)
  | B_geq => Ok (T_cmp C_geq x y)
  | B_contains => Ok (T_strpred P_contains y x)
  | B_starts => Ok (T_strpred P_prefixof y x)
  | B_ends => Ok (T_strpred P_suffixof y x)
  | B_regex =>
      match evaluate W None b with
      | Ok v => match v_val v with Some (PStr p, _) => Ok (T_matches x p) | _ => Crash end
      | _ => Crash
      end
  | B_index => match ta with Some (TArr _ _ _ el) => Ok (T_index el x y) | _ => Crash end
  | B_arrcontains => Ok (T_member y x)
  | B_pow =>
      match evaluate W None b with
      | Ok v =>
          match v_val v with
          | Some (PInt n, _) =>
              if n <? 0 then Crash
              else match ta with
                   | Some TInt => Ok (if n =? 0 then T_int 1 else power_term false x (Z.to_nat (n - 1)))
                   | Some TDec => Ok (if n =? 0 then T_lit (LDec 1) else power_term true x (Z.to_nat (n - 1)))
                   | _ => Crash
                   end
          | _ => Crash
          end
      | _ => Crash
      end
  | B_and | B_or | B_implies | B_eq | B_neq => Err l
  end.

(** 1275-1324 [tr_core_equality]; tuple types are declared before they are
    used, so their number bounds the depth. *)
Fixpoint core_equality (fuel : nat) (a : ty) (x y : term) : res loc term :=
  match a with
  | TTup u =>
      match fuel with
      | O => OutOfFuel
      | Datatypes.S fuel' =>
          match tup G u with
          | None => Crash
          | Some ut =>
              do parts <- (fix go (cs : list component) : res loc (list term) :=
                 match cs with
                 | [] => Ok []
                 | c :: cs' =>
                     do p <- core_equality fuel' (c_typ c) (T_value x (c_name c)) (T_value y (c_name c)) ;
                     do ps <- go cs' ;
                     Ok ((if c_opt c then
                            T_and (T_cmp C_eq (T_valid x (c_name c)) (T_valid y (c_name c)))
                                  (T_implies (T_valid x (c_name c)) p)
                          else p) :: ps)
                 end) (u_comps ut) ;
              Ok (match parts with
                  | [] => T_true
                  | p :: ps => fold_left T_and ps p
                  end)
          end
      end
  | _ => Ok (T_cmp C_eq x y)
  end.
Definition tuple_fuel : nat := List.length (tups G).

(** 1334-1367 *)
Definition equality_term (op : binop) (ta tb : option ty) (l r : tval) : res loc term :=
  let comp_typ := match fst l with None => tb | Some _ => ta end in
  let core x y := match comp_typ with Some a => core_equality tuple_fuel a x y | None => Crash end in
  do e <- (if is_static_true (snd l) && is_static_true (snd r) then
             do x <- some_value (fst l) ; do y <- some_value (fst r) ; core x y
           else if is_static_false (snd l) && is_static_false (snd r) then Ok T_true
           else match fst l, fst r with
                | None, _ => Ok (T_not (snd r))
                | _, None => Ok (T_not (snd l))
                | Some x, Some y =>
                    do c <- core x y ;
                    Ok (T_and (T_cmp C_eq (snd l) (snd r)) (T_implies (snd l) c))
                end) ;
  Ok (match op with B_neq => T_not e | _ => e end).

(** 1519-1587 *)
Definition has_valid (i : finfo) : bool := negb (fi_count i =? fi_total i) || fi_optional i.
Definition field_access (c : component) (a : option ty) (x : term) : res loc tval :=
  match a with
  | Some (TTup _) => Ok (Some (T_value x (c_name c)), if c_opt c then T_valid x (c_name c) else T_true)
  | Some (TRec r) =>
      let y := T_deref (F_record r) x in
      Ok (Some (T_value y (c_name c)), if c_opt c then T_valid y (c_name c) else T_true)
  | Some (TUnion _ ms) =>
      let y := T_deref (F_union ms) x in
      match assoc (c_name c) (field_map G ms) with
      | None => Crash
      | Some i =>
          match fi_typ i with
          | None => Crash                     (* no such component of the record sort *)
          | Some _ => Ok (Some (T_value y (c_name c)), if has_valid i then T_valid y (c_name c) else T_true)
          end
      end
  | _ => Crash
  end.

(** 1073-1093 *)
Fixpoint oneof_steps (before after : list term) : list term :=
  match after with
  | [] => []
  | a :: after' => T_all (map T_not before ++ a :: map T_not after') :: oneof_steps (before ++ [a]) after'
  end.
Definition oneof_term (cs : list term) : res loc term :=
  match cs with
  | [] => Crash
  | [a] => Ok a
  | [a; b] => Ok (T_xor a b)
  | _ => Ok (T_any (oneof_steps [] cs))
  end.

(** 818-843 *)
Definition name_reference (env : tenv) (n : text) : res loc (term * term) :=
  match assoc n env with Some v => Ok v | None => Crash end.

(** ** [tr_expression] with the attribute [functional] set.  Attaching a goal is
    an error then: the functions in 165-258 assert that it is not set. *)
Fixpoint tr_functional (env : tenv) (e : expr) {struct e} : res loc tval :=
  match e with
  | ENull _ => Ok (None, T_false)
  | ELit _ k => Ok (Some (T_lit k), T_true)
  | EName _ _ n _ _ => do (x, k) <- name_reference env n ; Ok (Some x, k)
  | EUnary _ _ op a =>
      do (x, _) <- tr_functional env a ;
      do x <- some_value x ; do y <- unary_term op (e_typ a) x ; Ok (Some y, T_true)
  | EBinary l _ op a b =>
      match op with
      | B_eq | B_neq =>
          do x <- tr_functional env a ; do y <- tr_functional env b ;
          do z <- equality_term op (e_typ a) (e_typ b) x y ; Ok (Some z, T_true)
      | _ =>
          do (x, _) <- tr_functional env a ; do (y, _) <- tr_functional env b ;
          do x <- some_value x ; do y <- some_value y ;
          match op with
          | B_and => Ok (Some (T_and x y), T_true)
          | B_or => Ok (Some (T_or x y), T_true)
          | B_implies => Ok (Some (T_implies x y), T_true)
          | _ =>
              match op_goals op (e_typ a) x y with
              | [] => do z <- binary_term l op (e_typ a) b x y ; Ok (Some z, T_true)
              | _ => Crash
              end
          end
      end
  | EField _ c p _ _ =>
      do (x, _) <- tr_functional env p ; do x <- some_value x ; field_access c (e_typ p) x
  | ERange _ a _ _ => do _ <- tr_functional env a ; Crash
  | EOneof _ es => match es with [] => Crash | a :: _ => do _ <- tr_functional env a ; Crash end
  | ECond _ acts els =>                                                (* 1097-1106 *)
      (fix go (acts : list (expr * expr)) : res loc tval :=
         match acts with
         | [] => do (x, _) <- tr_functional env els ; Ok (x, T_true)
         | (c, x) :: acts' =>
             do (r, _) <- go acts' ;
             do (s, _) <- tr_functional env c ; do (y, _) <- tr_functional env x ;
             do s <- some_value s ; do y <- some_value y ; do r <- some_value r ;
             Ok (Some (T_ite s y r), T_true)
         end) acts
  | EQuant l _ _ _ _ _ => Err l                                        (* 1375-1377 *)
  end.

(** ** [tr_expression] without it *)

(** 147-163 [create_return] *)
Definition create_return (a : term) : vm tval :=
  let# n := new_temp in
  let# _ := attach_temp n a in
  vret (Some (T_tmp n), T_true).
(** [attach_validity_check] of a result, and its value *)
Definition checked (emit : bool) (v : tval) (l : loc) : vm unit := attach_validity_check emit (snd v) l.

Fixpoint tr (emit : bool) (env : tenv) (e : expr) {struct e} : vm tval :=
  match e with
  | ENull _ => vret (None, T_false)
  | ELit _ k => vret (Some (T_lit k), T_true)
  | EName _ _ n _ _ => let# (x, k) := vlift (name_reference env n) in vret (Some x, k)
  | EUnary _ _ op a =>
      let# v := tr emit env a in
      let# _ := checked emit v (e_loc a) in
      let# x := vlift (some_value (fst v)) in
      let# y := vlift (unary_term op (e_typ a) x) in
      create_return y
  | EBinary l _ op a b =>
      (* 1146-1273: one path where the right side is not needed, with the result
         [fixed], and one where it is; [first] says which one comes first *)
      let lazy (stop fixed : bool) :=
        let# v := tr emit env a in
        let# _ := checked emit v (e_loc a) in
        let# x := vlift (some_value (fst v)) in
        let# start := get_start in
        let# n := new_temp in
        let# _ := attach_assumption (if stop then x else T_not x) in
        let# _ := attach_temp n (T_lit (LBool fixed)) in
        let# end1 := get_start in
        let# _ := set_start start in
        let# _ := attach_assumption (if stop then T_not x else x) in
        let# w := tr emit env b in
        let# _ := checked emit w (e_loc b) in
        let# y := vlift (some_value (fst w)) in
        let# _ := attach_temp n y in
        let# end2 := get_start in
        let# _ := set_start (end1 ++ end2) in
        vret (Some (T_tmp n), T_true) in
      match op with
      | B_eq | B_neq =>                                                 (* 1326-1369 *)
          let# v := tr emit env a in
          let# w := tr emit env b in
          let# x := vlift (equality_term op (e_typ a) (e_typ b) v w) in
          create_return x
      | B_implies => lazy false true
      | B_and => lazy false false
      | B_or => lazy true true
      | _ =>
          let# v := tr emit env a in
          let# _ := checked emit v (e_loc a) in
          let# w := tr emit env b in
          let# _ := checked emit w (e_loc b) in
          let# x := vlift (some_value (fst v)) in
          let# y := vlift (some_value (fst w)) in
          let# _ := attach_goals emit (op_goals op (e_typ a) x y) l in
          let# z := vlift (binary_term l op (e_typ a) b x y) in
          create_return z
      end
  | EField _ c p _ _ =>
      let# v := tr emit env p in
      let# _ := checked emit v (e_loc p) in
      let# x := vlift (some_value (fst v)) in
      vlift (field_access c (e_typ p) x)
  | ERange _ a lo hi =>                                                 (* 1048-1062 *)
      let# v := tr emit env a in
      let# _ := checked emit v (e_loc a) in
      let# w := tr emit env lo in
      let# _ := checked emit w (e_loc lo) in
      let# u := tr emit env hi in
      let# _ := checked emit u (e_loc hi) in
      let# x := vlift (some_value (fst v)) in
      let# y := vlift (some_value (fst w)) in
      let# z := vlift (some_value (fst u)) in
      create_return (T_and (T_cmp C_geq x y) (T_cmp C_leq x z))
  | EOneof _ es =>                                                      (* 1064-1095 *)
      let# xs := (fix go (es : list expr) : vm (list term) :=
         match es with
         | [] => vret []
         | a :: es' =>
             let# v := tr emit env a in
             let# _ := checked emit v (e_loc a) in
             let# x := vlift (some_value (fst v)) in
             let# xs := go es' in
             vret (x :: xs)
         end) es in
      let# z := vlift (oneof_term xs) in
      create_return z
  | ECond _ acts els =>                                                 (* 1108-1144 *)
      let# n := new_temp in
      let# ends := (fix go (acts : list (expr * expr)) : vm (list path) :=
         match acts with
         | [] =>
             let# w := tr emit env els in
             let# _ := checked emit w (e_loc els) in
             let# y := vlift (some_value (fst w)) in
             let# _ := attach_temp n y in
             get_start
         | (c, x) :: acts' =>
             let# v := tr emit env c in
             let# _ := checked emit v (e_loc c) in
             let# test := vlift (some_value (fst v)) in
             let# start := get_start in
             let# _ := attach_assumption test in
             let# w := tr emit env x in
             let# _ := checked emit w (e_loc x) in
             let# y := vlift (some_value (fst w)) in
             let# _ := attach_temp n y in
             let# end1 := get_start in
             let# _ := set_start start in
             let# _ := attach_assumption (T_not test) in
             let# end2 := go acts' in
             vret (end1 ++ end2)
         end) acts in
      let# _ := set_start ends in
      vret (Some (T_tmp n), T_true)
  | EQuant l un var ls src body =>                                      (* 1371-1474 *)
      let# (subject, valid) := vlift (name_reference env (c_name src)) in
      let# _ := attach_validity_check emit valid ls in
      match c_typ src with
      | TArr _ _ _ el =>
          let# start := get_start in
          let# i := new_temp in
          let# _ := add (D_fresh i) in
          let# _ := attach_assumption (T_cmp C_geq (T_tmp i) (T_int 0)) in
          let# _ := attach_assumption (T_cmp C_lt (T_tmp i) (T_seqlen subject)) in
          let# x := new_temp in
          let# _ := attach_temp x (T_index el subject (T_tmp i)) in
          let# w := tr emit ((var, (T_tmp x, T_true)) :: env) body in
          let# _ := checked emit w (e_loc body) in
          let# _ := set_start start in
          let# j := new_temp in
          let# (b, _) := vlift (tr_functional ((var, (T_index el subject (T_tmp j), T_true)) :: env) body) in
          let# b := vlift (some_value b) in
          let bounds := T_and (T_cmp C_geq (T_tmp j) (T_int 0)) (T_cmp C_lt (T_tmp j) (T_seqlen subject)) in
          vret (Some (T_quant un j (if un then T_implies bounds b else T_and bounds b)), T_true)
      | _ => vlift Crash
      end
  end.

(** ** Declarations *)

(** 585-603 *)
Fixpoint null_constraints (x : term) (cs : list component) : list term :=
  match cs with
  | [] => []
  | c :: cs' =>
      if c_opt c then
        match cs' with
        | [] => []
        | _ => T_implies (T_not (T_valid x (c_name c))) (T_all (map (fun c => T_not (T_valid x (c_name c))) cs'))
               :: null_constraints x cs'
        end
      else null_constraints x cs'
  end.
Definition tuple_env (x : term) (cs : list component) : tenv :=
  map (fun c => (c_name c, (T_value x (c_name c), if c_opt c then T_valid x (c_name c) else T_true))) cs.
Fixpoint check_constraints (env : tenv) (cks : list check) : res loc (list term) :=
  match cks with
  | [] => Ok []
  | ck :: cks' =>
      match ck_sev ck with
      | Sev_warning => check_constraints env cks'
      | _ =>
          do (x, _) <- tr_functional env (ck_expr ck) ;
          do x <- some_value x ; do xs <- check_constraints env cks' ; Ok (x :: xs)
      end
  end.
(** 560-609 *)
Definition tuple_constraints (u : nat) (x : term) : res loc (list term) :=
  match tup G u with
  | None => Crash
  | Some ut =>
      do xs <- check_constraints (tuple_env x (u_comps ut)) (u_checks ut) ;
      Ok (xs ++ null_constraints x (u_comps ut))
  end.

(** 624-627: frozen values are stored values; aggregates and references are not
    supported *)
Fixpoint tr_stored (v : vexpr) : res loc term :=
  match v with
  | XLit _ k _ => Ok (T_lit k)
  | XUnary _ _ op a => do x <- tr_stored a ; unary_term op (x_typ a) x
  | XNull l | XArr l _ _ | XTup l _ _ | XRef l _ _ _ _ => Err l
  end.

(** 611-672 [tr_component_decl]: the assertions about a component *)
Definition component_decl (frozen : option vexpr) (c : component) : res loc (list term) :=
  let x := T_val (c_name c) in
  do xs <- (match frozen with Some v => do y <- tr_stored v ; Ok [T_cmp C_eq x y] | None => Ok [] end) ;
  do ys <- (match c_typ c with
            | TTup u => tuple_constraints u x
            | TArr _ lo hi _ =>
                Ok ((if 0 <? lo then [T_cmp C_geq (T_seqlen x) (T_int lo)] else []) ++
                    match hi with Some h => [T_cmp C_leq (T_seqlen x) (T_int h)] | None => [] end)
            | _ => Ok []
            end) ;
  Ok (xs ++ ys ++ (if c_opt c && match frozen with None => true | _ => false end then []
                   else [T_cmp C_eq (T_ok (c_name c)) T_true])).
Fixpoint component_decls (frozen : text -> option vexpr) (cs : list component) : res loc (list term) :=
  match cs with
  | [] => Ok []
  | c :: cs' =>
      do xs <- component_decl (frozen (c_name c)) c ; do ys <- component_decls frozen cs' ; Ok (xs ++ ys)
  end.

(** ** Checks *)

(** ast.py:568, 993, 1089, 1398, 1832, 1915, 2005, 2062, 2211, 2332 *)
Fixpoint uses_field_access (e : expr) : bool :=
  match e with
  | ENull _ | ELit _ _ | EName _ _ _ _ _ => false
  | EUnary _ _ _ a => uses_field_access a
  | EBinary _ _ _ a b => uses_field_access a || uses_field_access b
  | EField _ _ p _ _ => match e_typ p with Some (TRec _ | TUnion _ _) => true | _ => uses_field_access p end
  | ERange _ a b c => uses_field_access a || uses_field_access b || uses_field_access c
  | EOneof _ es => existsb uses_field_access es
  | ECond _ acts els => existsb (fun '(c, x) => uses_field_access c || uses_field_access x) acts || uses_field_access els
  | EQuant _ _ _ _ _ b => uses_field_access b
  end.

(** 746-762 [tr_check]; [own]: the check was declared for the type itself *)
Definition component_env (cs : list component) : tenv := map (fun c => (c_name c, (T_val (c_name c), T_ok (c_name c)))) cs.
Definition tr_check (env : tenv) (own : bool) (ck : check) : vm unit :=
  let# v := tr own env (ck_expr ck) in
  let# _ := checked own v (e_loc (ck_expr ck)) in
  let# x := vlift (some_value (fst v)) in
  let# _ := attach_feasability_check own x (e_loc (ck_expr ck)) in
  attach_assumption x.

(** 345-353 *)
Fixpoint tr_checks (env : tenv) (cks : list (bool * check)) : vm unit :=
  match cks with
  | [] => vret tt
  | (own, ck) :: cks' =>
      let# start := get_start in
      let# _ := tr_check env own ck in
      let# _ := (match ck_sev ck with Sev_fatal => vret tt | _ => set_start start end) in
      tr_checks env cks'
  end.
(** 344-353: first the checks that do not follow references *)
Definition in_phases (cks : list (bool * check)) : list (bool * check) :=
  filter (fun c => negb (uses_field_access (ck_expr (snd c)))) cks ++ filter (fun c => uses_field_access (ck_expr (snd c))) cks.

(** 323-363: all goals for a type with these components and checks *)
Definition goals_of (frozen : text -> option vexpr) (cs : list component) (cks : list (bool * check)) : res loc (list vc) :=
  do decls <- component_decls frozen cs ;
  do (_, s) <- tr_checks (component_env cs) (in_phases cks) (Vst 0 0 [map D_assert (rev decls)] []) ;
  Ok (s_vcs s).

(** What is verified for a record type and for a tuple type *)
Definition inherited_checks (r : nat) : list check :=
  match rec G r with
  | Some rt => match r_parent rt with Some p => iter_checks G p | None => [] end
  | None => []
  end.
Definition record_checks (r : nat) : list (bool * check) :=
  map (pair false) (inherited_checks r) ++ map (pair true) (own_checks G r).
Definition record_goals (r : nat) : res loc (list vc) :=
  goals_of (fun n => option_map snd (get_freezing G r n)) (all_components G r) (record_checks r).
Definition tuple_goals (u : nat) : res loc (list vc) :=
  match tup G u with
  | None => Crash
  | Some ut => goals_of (fun _ => None) (u_comps ut) (map (pair true) (u_checks ut))
  end.
End VCG.

(** ** Results *)
Inductive status := Unsat | Sat | Unknown.
Definition fb_in (f : feedback) (l : list feedback) : bool := existsb (fun g => Nat.eqb (fb_id f) (fb_id g)) l.

Section SOLVE.
Variable solve : vc -> status.

Record found := Found {
  f_nok : list feedback;          (* nok_validity_checks, in the order of the messages *)
  f_nok_feasible : list feedback; (* nok_feasibility_checks *)
  f_ok_feasible : list feedback   (* ok_feasibility_checks *)
}.
(** 370-404 *)
Definition solve_one (s : found) (v : vc) : found :=
  let f := vc_feedback v in
  if expect_unsat f && fb_in f (f_nok s) then s
  else if expect_unsat f then
         match solve v with
         | Unsat => s
         | _ => Found (f_nok s ++ [f]) (f_nok_feasible s) (f_ok_feasible s)
         end
       else
         match solve v with
         | Unsat => Found (f_nok s) (f_nok_feasible s ++ [f]) (f_ok_feasible s)
         | _ => Found (f_nok s) (f_nok_feasible s) (f :: f_ok_feasible s)
         end.
(** 408-413 *)
Fixpoint report_feasible (nok ok : list feedback) : list feedback :=
  match nok with
  | [] => []
  | f :: nok' => if fb_in f ok then report_feasible nok' ok else f :: report_feasible nok' (f :: ok)
  end.
(** 365-413: the issues that are reported, in order *)
Definition report (vcs : list vc) : list feedback :=
  let s := fold_left solve_one vcs (Found [] [] []) in
  f_nok s ++ report_feasible (f_nok_feasible s) (f_ok_feasible s).
End SOLVE.
