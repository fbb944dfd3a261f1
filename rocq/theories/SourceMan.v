(** Model of [Source_Manager] (/repo/trlc/trlc.py:306-548): dependency graph,
    closure over include files, order of parsing, result of processing.

    What is read from a file is abstracted to its preamble; what happens while
    the rest of a file is parsed is an oracle (see [outcome]). *)
From Verif Require Import Base SymTab.
Open Scope Z_scope.

Inductive fkind := RSL | TRLC.
Definition fkind_eqb (a b : fkind) : bool :=
  match a, b with RSL, RSL | TRLC, TRLC => true | _, _ => false end.

Definition node := (text * fkind)%type.
Definition node_eqb (a b : node) : bool := text_eqb (fst a) (fst b) && fkind_eqb (snd a) (snd b).
Definition mem (n : node) (l : list node) : bool := existsb (node_eqb n) l.

(** What the preamble of a file looks like (parser.py:1963-2005): a syntax
    error before the package name, or a package name followed by import
    clauses; [complete] is false if a syntax error follows them. *)
Inductive preamble :=
| Pre_bad
| Pre (pkg : text) (imports : list text) (complete : bool).

(** A registered file ([Parser] with [primary] flag, parser.py:286-330).
    [f_id] stands for the file name. *)
Record file := File {
  f_id      : Z;
  f_kind    : fkind;
  f_primary : bool;
  f_pre     : preamble
}.

(** The names in the global table that are not packages, ast.py:3725-3750. *)
Definition builtin_names : list text :=
  [t "Integer"; t "Decimal"; t "Boolean"; t "String"; t "Markup_String";
   t "len"; t "startswith"; t "endswith"; t "matches"; t "oneof"].

Definition name_mem (n : text) (l : list text) : bool := existsb (text_eqb n) l.
Definition similar_mem (n : text) (l : list text) : bool :=
  existsb (fun m => text_eqb (simplified_name n) (simplified_name m)) l.

(** ast.py:241-259 [add_import]: [None] is the error for a self import. *)
Fixpoint add_imports (pkg : text) (imports acc : list text) : list text * bool :=
  match imports with
  | [] => (acc, true)
  | i :: imports' =>
      if text_eqb i pkg then (acc, false)
      else if name_mem i acc then add_imports pkg imports' acc
      else add_imports pkg imports' (acc ++ [i])
  end.

(** What is known about a file after its preamble: package ([cu.package]),
    imports ([cu.raw_imports]) and whether an error was raised. *)
Record parsed := Parsed {
  p_file    : file;
  p_pkg     : option text;
  p_imports : list text;
  p_ok      : bool
}.

(** parser.py:1963-2005 [parse_preamble] with the packages known so far. *)
Definition parse_preamble (pkgs : list text) (f : file) : list text * parsed :=
  match f_pre f with
  | Pre_bad => (pkgs, Parsed f None [] false)
  | Pre pkg imports complete =>
      let declare :=
        match f_kind f with
        | RSL => true
        | TRLC => negb (name_mem pkg (builtin_names ++ pkgs))
        end in
      if declare then
        if similar_mem pkg (builtin_names ++ pkgs) then (pkgs, Parsed f None [] false)
        else let (imps, ok) := add_imports pkg imports [] in
             (pkgs ++ [pkg], Parsed f (Some pkg) imps (ok && complete))
      else
        if name_mem pkg pkgs
        then let (imps, ok) := add_imports pkg imports [] in
             (pkgs, Parsed f (Some pkg) imps (ok && complete))
        else (pkgs, Parsed f None [] false)
  end.

Definition graph := list (node * list node).
Fixpoint gget (g : graph) (n : node) : list node :=
  match g with
  | [] => []
  | (m, l) :: g' => if node_eqb m n then l else gget g' n
  end.
Definition gdom (g : graph) : list node := map fst g.
Fixpoint gunion (g : graph) (n : node) (l : list node) : graph :=
  match g with
  | [] => []
  | (m, l') :: g' => if node_eqb m n
                     then (m, l' ++ filter (fun x => negb (mem x l')) l) :: g'
                     else (m, l') :: gunion g' n l
  end.

Record bstate := BState {
  b_pkgs  : list text;
  b_graph : graph;
  b_files : list parsed;          (* every file seen so far *)
  b_errors : Z                    (* errors reported *)
}.

(** trlc.py:319-336, for one file *)
Definition preamble_step (s : bstate) (f : file) : bstate :=
  let (pkgs, p) := parse_preamble (b_pkgs s) f in
  let g :=
    match p_pkg p, p_ok p with
    | Some pkg, true =>
        if mem (pkg, RSL) (gdom (b_graph s)) then b_graph s
        else b_graph s ++ [((pkg, RSL), []); ((pkg, TRLC), [(pkg, RSL)])]
    | _, _ => b_graph s
    end in
  BState pkgs g (b_files s ++ [p]) (b_errors s + if p_ok p then 0 else 1).

(** ast.py:261-274 [resolve_imports]: imports that are not packages are
    reported, the error is swallowed. *)
Definition resolve_imports (pkgs : list text) (p : parsed) : list text :=
  filter (fun i => name_mem i pkgs) (p_imports p).

(** trlc.py:338-348, for one file *)
Definition import_step (s : bstate) (p : parsed) : bstate :=
  match p_pkg p, p_ok p with
  | Some pkg, true =>
      let found := resolve_imports (b_pkgs s) p in
      BState (b_pkgs s)
             (gunion (b_graph s) (pkg, f_kind (p_file p)) (map (fun i => (i, f_kind (p_file p))) found))
             (b_files s)
             (b_errors s + Z.of_nat (List.length (p_imports p) - List.length found))
  | _, _ => s
  end.

Definition of_kind (k : fkind) (l : list parsed) : list parsed :=
  filter (fun p => fkind_eqb (f_kind (p_file p)) k) l.

(** One round of the loop of trlc.py:317; [fs] in the order of
    [sorted(container)]. *)
Definition container_step (k : fkind) (s : bstate) (fs : list file) : bstate :=
  let s1 := fold_left preamble_step fs s in
  fold_left import_step (of_kind k (b_files s1)) s1.

(** trlc.py:306-348 *)
Definition build (rsl trlc : list file) : bstate :=
  container_step TRLC (container_step RSL (BState [] [] [] 0) rsl) trlc.

Definition p_node (p : parsed) : option node :=
  match p_pkg p with Some pkg => Some (pkg, f_kind (p_file p)) | None => None end.

(** trlc.py:351-357: the initial work list (a set). *)
Fixpoint add_set (l acc : list node) : list node :=
  match l with
  | [] => acc
  | n :: l' => if mem n acc then add_set l' acc else add_set l' (acc ++ [n])
  end.
Definition nodes_of (ps : list parsed) : list node :=
  flat_map (fun p => match p_node p with Some n => [n] | None => [] end) ps.
Definition initial_work (s : bstate) : list node :=
  filter (fun n => mem n (gdom (b_graph s)))
         (add_set (nodes_of (filter (fun p => f_primary (p_file p)) (b_files s))) []).

Fixpoint remove_nth {A} (k : nat) (l : list A) : list A :=
  match l, k with
  | [], _ => []
  | _ :: l', O => l'
  | x :: l', S k' => x :: remove_nth k' l'
  end.

(** trlc.py:359-363: [work_list.pop()] takes an arbitrary element, here the
    one that [pick] chooses. *)
Fixpoint closure (pick : list node -> nat) (fuel : nat) (g : graph) (work required : list node)
  : option (list node) :=
  match work with
  | [] => Some required
  | w0 :: _ =>
      match fuel with
      | O => None
      | S f =>
          let k := (pick work mod List.length work)%nat in
          let n := nth k work w0 in
          let required' := n :: required in
          closure pick f g
            (add_set (filter (fun m => negb (mem m required') && mem m (gdom g)) (gget g n)) (remove_nth k work))
            required'
      end
  end.

(** trlc.py:365-371: files of required nodes become secondary *)
Definition secondary (required : list node) (p : parsed) : bool :=
  negb (f_primary (p_file p)) && p_ok p &&
  match p_node p with Some n => mem n required | None => false end.

(** trlc.py:378-430 [parse_rsl_files]: the files that are parsed *)
Definition rsl_work (s : bstate) (required : list node) : list node :=
  add_set (nodes_of (filter (fun p => f_primary (p_file p) || secondary required p)
                            (of_kind RSL (b_files s)))) [].

Fixpoint text_leb (a b : text) : bool :=
  match a, b with
  | [], _ => true
  | _ :: _, [] => false
  | x :: a', y :: b' => (N.ltb x y) || ((N.eqb x y) && text_leb a' b')
  end.
Fixpoint insert (n : node) (l : list node) : list node :=
  match l with
  | [] => [n]
  | m :: l' => if text_leb (fst n) (fst m) then n :: l else m :: insert n l'
  end.
Definition sort (l : list node) : list node := fold_right insert [] l.

(** The loop of trlc.py:396-428: the order in which packages are parsed, and
    whether a cycle was reported. *)
Fixpoint waves (fuel : nat) (g : graph) (work processed : list node) : option (list node * bool) :=
  match work with
  | [] => Some ([], false)
  | _ =>
      match fuel with
      | O => None
      | S f =>
          let candidates := filter (fun n => forallb (fun d => mem d processed) (gget g n)) work in
          match candidates with
          | [] => Some ([], true)
          | _ =>
              match waves f g (filter (fun n => negb (mem n candidates)) work) (processed ++ sort candidates) with
              | Some (order, cyc) => Some (sort candidates ++ order, cyc)
              | None => None
              end
          end
      end
  end.

(** trlc.py:432-451 [parse_trlc_files]: the files that are parsed *)
Definition trlc_parsed (s : bstate) (required : list node) : list parsed :=
  filter (fun p => p_ok p && (f_primary (p_file p) || secondary required p)) (of_kind TRLC (b_files s)).

(** ** Processing *)

(** What happens while something is parsed or checked: whether the tool
    considers it good, and how many errors were reported. *)
Record outcome := Outcome { o_ok : bool; o_errors : Z }.

Record oracle := Oracle {
  ora_rsl     : node -> outcome;       (* parse_rsl_file *)
  ora_lint    : outcome;               (* perform_sanity_checks *)
  ora_trlc    : file -> outcome;       (* parse_trlc_file *)
  ora_refs    : outcome;               (* resolve_record_references *)
  ora_checks  : outcome                (* perform_checks *)
}.

Definition all_ok (l : list outcome) : bool := forallb o_ok l.
Definition all_errors (l : list outcome) : Z := fold_right (fun o n => o_errors o + n) 0 l.

(** trlc.py:481-548 [process] with error recovery, lint mode [lint], parsing
    trlc files: (a symbol table is returned, number of errors reported). *)
Definition process (pick : list node -> nat) (lint : bool) (o : oracle) (rsl trlc : list file)
  : option (bool * Z) :=
  let s := build rsl trlc in
  let ok0 := forallb p_ok (b_files s) in
  match closure pick (S (List.length (gdom (b_graph s)))) (b_graph s) (initial_work s) [] with
  | None => None
  | Some required =>
      match waves (S (List.length (rsl_work s required))) (b_graph s) (rsl_work s required) [] with
      | None => None
      | Some (order, cyc) =>
          let r := map (ora_rsl o) order in
          let ok1 := ok0 && all_ok r && negb cyc in
          let e1 := b_errors s + all_errors r + (if cyc then 1 else 0) in
          let ok2 := if lint && ok1 then o_ok (ora_lint o) else ok1 in
          let e2 := e1 + if lint && ok1 then o_errors (ora_lint o) else 0 in
          let tr := map (fun p => ora_trlc o (p_file p)) (trlc_parsed s required) in
          let e3 := e2 + all_errors tr in
          if negb (all_ok tr) then Some (false, e3)
          else
            let e4 := e3 + o_errors (ora_refs o) in
            if negb (o_ok (ora_refs o)) then Some (false, e4)
            else if negb ok2 then Some (false, e4)
            else
              let e5 := e4 + o_errors (ora_checks o) in
              if negb (o_ok (ora_checks o)) then Some (false, e5)
              else Some (true, e5)
      end
  end.
