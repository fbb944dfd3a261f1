(** Whole files: /repo/trlc/parser.py lines 1963-2090 and
    /repo/trlc/ast.py lines 241-280. *)
From Verif Require Import Base Lexer SymTab Ast Eval ParserBase ParserExpr ParserValue Lint ParserDecl.
From Verif Require SourceMan.
Open Scope Z_scope.

Definition set_cu (f : cunit -> cunit) : D unit := fun s => DOk tt (St (s_env s) (f (s_cu s)) (s_sec s) (s_ps s)).
Definition dcu : D cunit := fun s => DOk (s_cu s) s.

Section FILE.
Variable file : Z.
Variable src : text.
Variable lint : bool.
Variable compiles : text -> bool.
Variable matches : text -> text -> option bool.
Variable n : nat.

Notation loc_of := (tok_loc file).

(** ** The preamble *)

(** ast.py:241-259 [add_import] *)
Definition add_import (tk : token) : D unit :=
  let# c := dcu in
  if text_eqb (tok_text tk) (cu_name c) then derror (E_msg (loc_of tk) M_self_import)
  else if existsb (fun x => text_eqb (tok_text x) (tok_text tk)) (cu_raw c)
  then dp (pnote (Note_lint (loc_of tk) L_duplicate_import))
  else set_cu (fun c => CU (cu_pkg c) (cu_name c) (cu_raw c ++ [tk]) (cu_imports c)).
(** parser.py:1999-2005 *)
Fixpoint imports_loop (m : nat) : D unit :=
  match m with
  | O => dfuel
  | S m' =>
      dcond (peek_kw (t "import"))
        (let# _ := dp (p_match_kw file (t "import")) in
         let# tk := dp (p_match file IDENTIFIER) in
         let# _ := add_import tk in
         imports_loop m')
        (dret tt)
  end.

(** ast.py:3399-3503 on the global table *)
Definition declare_package (tk : token) : D nat :=
  let# v := dget in
  let p := List.length (v_pkgs v) in
  let# _ := dlift (registrable (fun e => e) (v_stab v) (tok_text tk) (loc_of tk)) in
  let# _ := dset (fun v => Env (v_types v) (v_objs v) (v_secs v) (v_stab v ++ [(tok_text tk, N_pkg p)])
                               (v_pkgs v ++ [[]]) (v_next v)) in
  dret p.
Definition find_package (tk : token) : D nat :=
  let# e := with_names (fun v N => lift (e_lookup file (n_stab N) tk (Some is_package))) in
  match e with N_pkg p => dret p | _ => dcrash end.
(** parser.py:1963-2005 [parse_preamble] *)
Definition parse_preamble (k : SourceMan.fkind) : D unit :=
  let# _ := dp (p_match_kw file (t "package")) in
  let# tk := dp (p_match file IDENTIFIER) in
  let# v := dget in
  let declare := match k with SourceMan.RSL => true | SourceMan.TRLC => negb (t_contains (v_stab v) (tok_text tk)) end in
  let# p := if declare then declare_package tk else find_package tk in
  let# _ := set_cu (fun c => CU (Some p) (tok_text tk) (cu_raw c) (cu_imports c)) in
  imports_loop n.

(** ast.py:261-274 [resolve_imports]: what is not a package is reported and
    left out. *)
Fixpoint imported (d : ntable) (l : list token) : list nat * list perr :=
  match l with
  | [] => ([], [])
  | tk :: l' =>
      let (ps, es) := imported d l' in
      match e_lookup file d tk (Some is_package) with
      | Ok (N_pkg p) => (p :: ps, es)
      | Err e => (ps, e :: es)
      | _ => (ps, es)
      end
  end.

(** ** Files with types *)

(** parser.py:2026-2034: the restart after an error *)
Definition rsl_restart (s : ps) : bool :=
  peek_kw (t "checks") s || peek_kw (t "type") s || peek_kw (t "abstract") s || peek_kw (t "final") s ||
  peek_kw (t "tuple") s || peek_kw (t "enum") s.
Fixpoint skip_to (m : nat) (stop : ps -> bool) : P unit :=
  match m with
  | O => pfuel
  | S m' =>
      pcond peek_eof (pret tt)
        (pcond stop (pret tt)
           (let* _ := p_advance in
            let* _ := skip_until_newline n in
            skip_to m' stop))
  end.
Definition recover (stop : ps -> bool) : P unit :=
  let* _ := skip_until_newline n in skip_to n stop.

(** A declaration that fails is reported; [false] is its result.  The test
    [err.kind == "lex error"] (2019, 2056) never holds: the kind is a member
    of an enumeration (errors.py:270-279). *)
Definition attempt (recovery : bool) (m : D unit) (restart : env -> names -> P unit) : D bool :=
  fun s => match m s with
           | DOk _ s' => DOk true s'
           | DErr e s' =>
               if recovery then
                 match (let# _ := dp (pnote (Note_error e)) in with_names restart) s' with
                 | DOk _ s'' => DOk false s''
                 | DErr e' s'' => DErr e' s''
                 | DCrash => DCrash
                 | DFuel => DFuel
                 end
               else DErr e s'
           | DCrash => DCrash
           | DFuel => DFuel
           end.

Definition rsl_item : D unit :=
  dcond (peek_kw (t "checks")) (parse_check_block file lint compiles matches n)
    (parse_type_declaration file src lint n).
(** parser.py:2007-2044 [parse_rsl_file] *)
Fixpoint rsl_loop (m : nat) (recovery ok : bool) : D bool :=
  match m with
  | O => dfuel
  | S m' =>
      dcond peek_eof (dret ok)
        (let# good := attempt recovery rsl_item (fun _ _ => recover rsl_restart) in
         rsl_loop m' recovery (ok && good))
  end.
Definition parse_rsl_file (recovery : bool) : D bool :=
  let# ok := rsl_loop n recovery true in
  let# _ := dp (p_match_eof file) in
  dret ok.

(** ** Files with objects *)

(** parser.py:2062-2081: the next token starts something *)
Definition is_record_name (d : ntable) (name : text) : bool :=
  match t_find d name with
  | Some (k, N_type (TRec _)) => text_eqb k name
  | _ => false
  end.
Definition is_package_name (d : ntable) (name : text) : bool :=
  match t_find d name with
  | Some (k, N_pkg _) => text_eqb k name
  | _ => false
  end.
Definition trlc_restart (N : names) (s : ps) : bool :=
  peek_kw (t "section") s ||
  next_is (fun tk => is_kind IDENTIFIER tk &&
                     if t_contains (n_stab N) (tok_text tk) then is_package_name (n_stab N) (tok_text tk)
                     else is_record_name (p_symbols N (n_current N)) (tok_text tk)) s.
(** parser.py:2046-2090 [parse_trlc_file] *)
Fixpoint trlc_loop (m : nat) (recovery ok : bool) : D bool :=
  match m with
  | O => dfuel
  | S m' =>
      dcond (fun s => peek_kw (t "section") s || peek IDENTIFIER s)
        (let# good := attempt recovery (parse_entry file src n n) (fun _ N => recover (trlc_restart N)) in
         trlc_loop m' recovery (ok && good))
        (dret ok)
  end.
Definition parse_trlc_file (recovery : bool) : D bool :=
  let# ok := trlc_loop n recovery true in
  let# _ := dp (p_match_eof file) in
  dret ok.
End FILE.
