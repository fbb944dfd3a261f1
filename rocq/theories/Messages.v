(** Model of the message handler, /repo/trlc/errors.py, and of the exit code
    of the command line tool, /repo/trlc/trlc.py:560-818. *)
From Verif Require Import Base PyText.
Open Scope Z_scope.

(** ["%u" % n] for a non-negative [n]: the decimal digits. *)
Fixpoint show_digits (fuel : nat) (n : Z) (acc : text) : text :=
  match fuel with
  | O => acc
  | S f => let acc' := Z.to_N (48 + n mod 10) :: acc in
           if n / 10 =? 0 then acc' else show_digits f (n / 10) acc'
  end.
Definition show (n : Z) : text := show_digits (S (Z.to_nat (Z.log2 n))) n [].

(** /repo/trlc/errors.py:27-77 [Location] and its subclass
    [Source_Reference] (lexer.py:69); [loc_ctx] is what [context_lines]
    returns (the empty list or two lines). *)
Record location := Location {
  loc_file : text;
  loc_line : option Z;
  loc_col  : option Z;
  loc_ctx  : option (text * text)
}.

(** /repo/trlc/errors.py:98-111 [Kind] *)
Inductive mkind := SYS_ERROR | SYS_CHECK | SYS_WARNING | USER_ERROR | USER_WARNING.
Definition mkind_eqb (a b : mkind) : bool :=
  match a, b with
  | SYS_ERROR, SYS_ERROR | SYS_CHECK, SYS_CHECK | SYS_WARNING, SYS_WARNING
  | USER_ERROR, USER_ERROR | USER_WARNING, USER_WARNING => true
  | _, _ => false
  end.
Definition kind_str (k : mkind) : text :=
  match k with
  | SYS_ERROR => t "error"
  | SYS_CHECK => t "issue"
  | SYS_WARNING => t "warning"
  | USER_ERROR => t "check error"
  | USER_WARNING => t "check warning"
  end.

(** /repo/trlc/errors.py:54-74 [Location.to_string] *)
Definition to_string (l : location) (include_column : bool) : text :=
  loc_file l ++
  match loc_line l with
  | None => []
  | Some n => t ":" ++ show n ++
              (if include_column
               then match loc_col l with Some c => t ":" ++ show c | None => [] end
               else [])
  end.

(** Configuration: errors.py:168-190 [Message_Handler.__init__] *)
Record mh_config := MHConfig {
  brief        : bool;
  show_details : bool;
  strip_prefix : option text
}.

(** The mutable part of the handler; [out] are the lines printed so far. *)
Record mh := MH {
  warnings      : Z;
  errors        : Z;
  suppressed    : Z;
  suppress_kind : list mkind;
  out           : list text
}.
Definition mh_init : mh := MH 0 0 0 [] [].

(** What a call of the handler does to its caller. *)
Inductive effect :=
| Returns
| Raises (l : location) (k : mkind) (message : text)
| Exits.

(** errors.py:232-236 [_loc_str] *)
Definition loc_str (cfg : mh_config) (l : location) (include_column : bool) : text :=
  let s := to_string l include_column in
  match strip_prefix cfg with
  | Some p => if negb (match p with [] => true | _ => false end) && starts_with p s
              then skipn (List.length p) s else s
  | None => s
  end.

Definition replace_tabs (s : text) : text := map (fun c => if N.eqb c 9 then 32%N else c) s.

(** The lines [emit] prints for a message that is not suppressed,
    errors.py:238-273 *)
Definition emit_lines (cfg : mh_config) (l : location) (k : mkind) (message : text)
           (extrainfo category : option text) : list text :=
  let context := if brief cfg then None else loc_ctx l in
  let msg :=
    (if brief cfg
     then loc_str cfg l true ++ t ": trlc " ++ kind_str k ++ t ": " ++ message
     else loc_str cfg l (match context with None => true | _ => false end)
          ++ t ": " ++ kind_str k ++ t ": " ++ message)
    ++ match category with
       | Some c => match c with [] => [] | _ => t " [" ++ c ++ t "]" end
       | None => []
       end in
  match context with
  | Some (a, b) => [replace_tabs a; replace_tabs b ++ t " " ++ msg]
  | None => [msg]
  end ++
  (if negb (brief cfg) && show_details cfg then
     match extrainfo with
     | Some e =>
         let indent := match context with
                       | Some (_, b) => (List.length b - 1)%nat
                       | None => O
                       end in
         map (fun line => repeat 32%N indent ++ t "| " ++ rstrip line) (splitlines e)
     | None => []
     end
   else []).

(** /repo/trlc/errors.py:218-276 [emit] *)
Definition emit (cfg : mh_config) (s : mh) (l : location) (k : mkind) (message : text)
           (fatal : bool) (extrainfo category : option text) : mh * effect :=
  let s' :=
    if existsb (mkind_eqb k) (suppress_kind s)
    then MH (warnings s) (errors s) (suppressed s + 1) (suppress_kind s) (out s)
    else MH (warnings s) (errors s) (suppressed s) (suppress_kind s)
            (out s ++ emit_lines cfg l k message extrainfo category) in
  (s', if fatal then Raises l k message else Returns).

Definition count_error (s : mh) : mh :=
  MH (warnings s) (errors s + 1) (suppressed s) (suppress_kind s) (out s).
Definition count_warning (s : mh) : mh :=
  MH (warnings s + 1) (errors s) (suppressed s) (suppress_kind s) (out s).

(** The calls a user of the handler can make. *)
Inductive call :=
| Suppress (k : mkind)                                                     (* 207 *)
| Lex_error (l : location) (message : text)                                (* 278 *)
| Error (l : location) (message : text) (explanation : option text) (fatal user : bool)   (* 287 *)
| Warning (l : location) (message : text) (explanation : option text) (user : bool)       (* 337 *)
| Check (l : location) (message check : text) (explanation : option text)  (* 364 *)
| Ice_loc (l : location) (message : text).                                 (* 378 *)

Definition bugs_url_note : text := t "please report this to https://github.com/bmw-software-engineering/trlc/issues".

(** errors.py:207-209, 278-285, 287-335, 337-362, 364-376, 378-388 *)
Definition call_step (cfg : mh_config) (s : mh) (c : call) : mh * effect :=
  match c with
  | Suppress k =>
      (MH (warnings s) (errors s) (suppressed s)
          (if existsb (mkind_eqb k) (suppress_kind s) then suppress_kind s else k :: suppress_kind s)
          (out s), Returns)
  | Lex_error l m => emit cfg (count_error s) l SYS_ERROR m true None None
  | Error l m e fatal user =>
      emit cfg (count_error s) l (if user then USER_ERROR else SYS_ERROR) m fatal e None
  | Warning l m e user =>
      emit cfg (count_warning s) l (if user then USER_WARNING else SYS_WARNING) m false e None
  | Check l m c e => emit cfg (count_warning s) l SYS_CHECK m false e (Some c)
  | Ice_loc l m =>
      (fst (emit cfg (count_error s) l SYS_ERROR m false (Some bugs_url_note) None), Exits)
  end.

(** A history of calls; [Ice_loc] leaves the program. *)
Fixpoint run (cfg : mh_config) (s : mh) (cs : list call) : mh * list effect :=
  match cs with
  | [] => (s, [])
  | c :: cs' =>
      match call_step cfg s c with
      | (s', Exits) => (s', [Exits])
      | (s', e) => let (s'', es) := run cfg s' cs' in (s'', e :: es)
      end
  end.

(** ** The command line tool *)

(** The options that influence the exit code (trlc.py:560-664) and what
    happens during the run. *)
Record cli := Cli {
  log_values       : nat;        (* number of values of --log *)
  version_asked    : bool;
  verify           : bool;
  vcg_available    : bool;
  includes_are_dirs : list bool; (* for each include directory *)
  items_exist      : list bool;  (* for each DIR|FILE *)
  registered_ok    : list bool;  (* results of register_directory/register_file *)
  process_result   : bool;       (* process() returned a symbol table *)
  cli_errors       : Z;          (* mh.errors at the end *)
  cli_warnings     : Z;          (* mh.warnings at the end *)
  error_on_warnings : bool;
  broken_pipe      : bool        (* writing to standard output failed *)
}.

(** /repo/trlc/trlc.py:560-831 [trlc] and [main]: the exit code.  [ap.error]
    exits with 2. *)
Definition exit_code (o : cli) : Z :=
  if (2 <? Z.of_nat (log_values o)) then 2
  else if version_asked o then 0
  else if verify o && negb (vcg_available o) then 2
  else if negb (forallb id (includes_are_dirs o)) then 2
  else if negb (forallb id (items_exist o)) then 2
  else if broken_pipe o then 141
  else
    let ok := fold_left andb (registered_ok o) true in
    if negb ok then 1
    else
      let ok := if process_result o then ok else false in
      if ok then
        if (error_on_warnings o && negb (cli_warnings o =? 0)) || negb (cli_errors o =? 0)
        then 1 else 0
      else 1.
