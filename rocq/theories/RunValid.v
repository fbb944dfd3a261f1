(** Valid sets of files: what has to be written for a run to return a symbol
    table, and which one.  Written from the reference manual, with the strict
    reading of all declarations ([lax] is [false]); the manual says nothing
    about the order of files, so the orders are those of the tool.  The
    relations do not mention the parser. *)
From Coq Require Import Relations Sorted.
From Verif Require Import Base Lexer SymTab Ast Eval Typing ParserBase ParserValue ValueSyntax ParserDecl DeclSyntax Process RunSyntax.
From Verif Require SourceMan ChecksProofs.
Import SourceMan (fkind, RSL, TRLC).
Open Scope Z_scope.

(** ** Preambles *)

(** A preamble, and then the end of the file or something else. *)
Definition opens (f : input_file) (name : token) (l : list token) : Prop :=
  exists ts, preamble_part name l ts /\
    (tokens_of (i_src f) ts \/ exists tk, begins (i_src f) (ts ++ [tk]) /\ ~ word "import" tk).
(** The packages that are imported, each once, in the order of imports; other
    names are ignored (but reported). *)
Inductive packages_of (d : ntable) : list text -> list token -> list nat -> Prop :=
| po_none seen : packages_of d seen [] []
| po_again seen tk l ps : In (tok_text tk) seen -> packages_of d seen l ps -> packages_of d seen (tk :: l) ps
| po_package seen tk l q ps : ~ In (tok_text tk) seen -> entry d (tok_text tk) (N_pkg q) ->
    packages_of d (seen ++ [tok_text tk]) l ps -> packages_of d seen (tk :: l) (q :: ps)
| po_unknown seen tk l ps : ~ In (tok_text tk) seen -> (forall q, ~ entry d (tok_text tk) (N_pkg q)) ->
    packages_of d (seen ++ [tok_text tk]) l ps -> packages_of d seen (tk :: l) ps.

(** ** Orders *)
Definition before (a b : input_file) : Prop := i_id a < i_id b.
(** By code points *)
Inductive text_lt : text -> text -> Prop :=
| tlt_end c x : text_lt [] (c :: x)
| tlt_less a b x y : (a < b)%N -> text_lt (a :: x) (b :: y)
| tlt_same a x y : text_lt x y -> text_lt (a :: x) (a :: y).
(** In each round all files are taken that need nothing but what was taken
    before, sorted by the names of their packages. *)
Inductive rounds (fs : list input_file) : list text -> list input_file -> Prop :=
| rd_none done : rounds fs done []
| rd_more done w names rest : w <> [] -> Forall2 declares w names -> StronglySorted text_lt names ->
    (forall P Q, In P names -> needs fs (P, RSL) (Q, RSL) -> In Q done) ->
    (forall f P, In f rest -> declares f P -> exists Q, needs fs (P, RSL) (Q, RSL) /\ ~ In Q done) ->
    rounds fs (done ++ names) rest -> rounds fs done (w ++ rest).
(** Packages in the order in which they are first declared: [known names new] *)
Inductive new_names : list text -> list text -> list text -> Prop :=
| nn_none known : new_names known [] []
| nn_old known P l new : In P known -> new_names known l new -> new_names known (P :: l) new
| nn_new known P l new : ~ In P known -> new_names (known ++ [P]) l new -> new_names known (P :: l) (P :: new).

(** ** Declarations *)
Section RUN.
Variable compiles : text -> bool.
Variable matches : text -> text -> option bool.
Variable names : ntable.
Inductive valid_types : list input_file -> env -> env -> Prop :=
| vty_none v : valid_types [] v v
| vty_more f fs name l body p ps v v1 v' : file_is f name l body ->
    entry names (tok_text name) (N_pkg p) -> packages_of names [] l ps ->
    type_items (i_id f) (i_src f) compiles matches p (Some ps) false v body v1 ->
    valid_types fs v1 v' -> valid_types (f :: fs) v v'.
Inductive valid_objects : list input_file -> env -> env -> Prop :=
| vob_none v : valid_objects [] v v
| vob_more f fs name l body p ps v v1 v' : file_is f name l body ->
    entry names (tok_text name) (N_pkg p) -> packages_of names [] l ps ->
    object_items (i_id f) (i_src f) p (Some ps) false [] v body v1 ->
    valid_objects fs v1 v' -> valid_objects (f :: fs) v v'.
End RUN.

(** ** References *)
Section LINKS.
Variable v : env.
(** The object [n] of package [p]; it has the type [a], if one is required. *)
Inductive link : option ty -> nat -> text -> ty -> nat -> Prop :=
| link_any p d n o ob : nth_error (v_pkgs v) p = Some d -> In (n, N_obj o) d -> nth_error (v_objs v) o = Some ob ->
    link None p n (TRec (o_typ ob)) o
| link_type a p d n o ob : nth_error (v_pkgs v) p = Some d -> In (n, N_obj o) d -> nth_error (v_objs v) o = Some ob ->
    fits_ref (v_types v) ob a -> link (Some a) p n a o.
Inductive links : vexpr -> vexpr -> Prop :=
| ln_null l : links (XNull l) (XNull l)
| ln_unary l a op x : links (XUnary l a op x) (XUnary l a op x)
| ln_lit l k xs ys : all_links xs ys -> links (XLit l k xs) (XLit l k ys)
| ln_arr l a xs ys : all_links xs ys -> links (XArr l a xs) (XArr l a ys)
| ln_tup l u xs ys : field_links xs ys -> links (XTup l u xs) (XTup l u ys)
| ln_ref l a p n tgt b o : link a p n b o -> links (XRef l a p n tgt) (XRef l (Some b) p n (Some o))
with all_links : list vexpr -> list vexpr -> Prop :=
| al_none : all_links [] []
| al_more x y xs ys : links x y -> all_links xs ys -> all_links (x :: xs) (y :: ys)
with field_links : list (text * vexpr) -> list (text * vexpr) -> Prop :=
| fln_none : field_links [] []
| fln_more k x y xs ys : links x y -> field_links xs ys -> field_links ((k, x) :: xs) ((k, y) :: ys).
Inductive linked_object : object -> object -> Prop :=
| lo_object p n l r fs fs' :
    Forall2 (fun f f' : text * field => fst f' = fst f /\ fst (snd f') = fst (snd f) /\ links (snd (snd f)) (snd (snd f'))) fs fs' ->
    linked_object (Object p n l r fs) (Object p n l r fs').
(** All references get their targets. *)
Definition linked (v' : env) : Prop :=
  v_types v' = v_types v /\ v_secs v' = v_secs v /\ v_stab v' = v_stab v /\ v_pkgs v' = v_pkgs v /\ v_next v' = v_next v /\
  Forall2 linked_object (v_objs v) (v_objs v').
End LINKS.

(** ** All files *)
Record laid_out (compiles : text -> bool) (matches : text -> text -> option bool) (fs : list input_file)
    (rsl trlc : list input_file) (rsl_names more : list text) (v1 v2 v : env) : Prop := LaidOut {
  (** The names of the files differ. *)
  va_ids : NoDup (map i_id fs);
  (** Every file cannot be read at all, or starts with a preamble. *)
  va_files : forall f, In f fs -> (exists e, unreadable f e) \/ exists name l, opens f name l;
  (** The packages *)
  va_rsl_names : exists rf, (forall f, In f rf <-> In f fs /\ i_kind f = RSL /\ exists P, declares f P) /\
    StronglySorted before rf /\ Forall2 declares rf rsl_names;
  va_more : exists tf tn, (forall f, In f tf <-> In f fs /\ i_kind f = TRLC /\ exists P, declares f P) /\
    StronglySorted before tf /\ Forall2 declares tf tn /\ new_names rsl_names tn more;
  va_distinct : NoDup (map simplified_name (map fst builtin_table ++ rsl_names ++ more));
  (** The files that are used, in their order *)
  va_rsl : forall f, In f rsl <-> In f fs /\ i_kind f = RSL /\ file_needed fs f;
  va_order : rounds fs [] rsl;
  va_trlc : forall f, In f trlc <-> In f fs /\ i_kind f = TRLC /\ file_needed fs f;
  va_sorted : StronglySorted before trlc;
  (** The declarations *)
  va_types : valid_types compiles matches (package_table rsl_names) rsl (start_env (rsl_names ++ more)) v1;
  va_objects : valid_objects (package_table (rsl_names ++ more)) trlc v1 v2;
  va_linked : linked v2 v
}.
Record valid (compiles : text -> bool) (matches : text -> text -> option bool) (fs : list input_file)
    (rsl trlc : list input_file) (rsl_names more : list text) (v1 v2 v : env) : Prop := Valid {
  va_laid :> laid_out compiles matches fs rsl trlc rsl_names more v1 v2 v;
  (** All checks hold, except for warnings: they may fail. *)
  va_checks : forall ob s, In ob (v_objs v) -> In s (ChecksProofs.object_sites (v_types v) ob) ->
    ChecksProofs.outcome (World (v_objs v) matches) s ChecksProofs.Holds \/
    (ChecksProofs.outcome (World (v_objs v) matches) s ChecksProofs.Fails /\ ck_sev (ChecksProofs.s_check s) = Sev_warning)
}.
