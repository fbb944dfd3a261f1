# Formal model of TRLC in Rocq (Coq 8.16.1)

## Approach

The Python code in `/repo/trlc` is read as text and re-expressed as shallow,
total, computable Gallina functions, branch by branch.  Exceptions are values:
each function returns a small result type that separates

* a normal result,
* a *reported* error (`mh.error`/`mh.lex_error`, i.e. a `TRLC_Error`),
* an *internal* failure (Python `AssertionError`, `IndexError`, ...: a crash),
* exhausted fuel (only where the Python code has an unbounded loop; every
  theorem about such a function also shows that the fuel is never exhausted).

Python `int` is `Z`, `Fraction` is `Q` (compared with `==`), text is
`list N` (Unicode code points).  Dictionaries with insertion order are
association lists.  Object identity is an explicit identifier.

Specifications are separate, small, declarative definitions (mostly
inductive predicates or plain arithmetic) which do not call model functions.

File layout in `rocq/theories/`:

* `X.v` – model of one part of the code (definitions only, with `/repo` line
  citations), `XSpec.v` or a section in the proof file – specification,
* `XProofs.v` – lemmas and proofs,
* `Prop_X.v` – the property theorems, each with an `Example` that its
  hypotheses are satisfiable and `Print Assumptions`.

## Plan per property

| id | modelled code | method |
|----|---------------|--------|
| C01–C10 | `lexer.py` lexer, literally with `cc/nc/nnc/lexpos/line_no/col_no` | invariant of `advance`, induction on remaining input; losslessness as a segmentation of the text |
| C11 | `Source_Reference.get_end_location` | refutation for newlines at positions 0/1, proof elsewhere |
| C12–C14 | `math.py`, integer division in `ast.py` | arithmetic over `Z`/`Q` |
| C15–C16 | `errors.py` message handler, exit code part of `trlc.py` | induction over message histories |
| C17–C18 | `Symbol_Table`, `Scope` | invariant over registration histories, refinement to a map |
| C19–C21, C33 | type part of `ast.py` | induction over inheritance chains, check lists |
| C22–C28 | expression part of `ast.py` | evaluator and static rules; type soundness by induction on expressions |
| C29–C32 | value parsing, record objects, references | induction over tokens / components |
| C34–C36 | `trlc.py` source manager | work-set algorithm against reachability, every pop order |
| C37–C38 | `nested.py`, markup lexer/parser | induction over string contents |
| C39–C40, C46–C47 | `lint.py` | decision table, forest induction, invariant of the traversal |
| C31, C51–C52 | `parser.py` declarations and files, `trlc.py` `process` | invariant of the environment kept by every declaration, also by failed ones |
| C53 | `parser.py` declarations and files, `trlc.py` `process` | declarations as a relation on token lists and environments; the run refines it file by file |
| C54 | `trlc.py` `process` and everything it calls | valid files as a relation (RunValid.v); every stage of the run succeeds on them (RunComplete.v) |
| C43 | `lexer.py` excerpt of a message (`SrcRef.v`) | arithmetic on positions in the line |
| C44 | `can_be_null` in `ast.py` | induction over typed expressions |
| C45 | `evaluate`, `process` | manual as a relation; evaluation agrees with it, for expressions and for whole runs |
| C55–C57 | `vcg.py` | terms get a meaning in models; simulation of evaluation by induction over expressions; exact conditions for assertion failures |
| C58 | `lint.py` `verify_imports` | a file that does not name a package is parsed alike with and without the import; lifted to runs |
| C59 | `ast.py` `to_python_dict` and `to_python_object` | induction over typed values; unique names from C17 and the lexer |
| C60 | `ast.py` `iter_record_objects`, `iter_record_objects_by_section` | outline of each file from the grammar of declarations, induction over forests of sections |
| C61 | `vcg.py` `value_to_trlc`, `fraction_to_decimal_string` | divisors of powers of ten; lexemes in context, induction over types, refinement to the notation of values |
| C62 | `ast.py` `to_string` of check expressions | mutual induction over the grammar; lexemes in context, refinement to the grammar of expressions |
| C41–C42, C48–C50 | `parser.py` | grammar as a relation, printing/parsing round trip, progress measure |

Where the code violates a property as stated, the theorem `..._refuted`
gives a concrete witness in the model and a `..._partial` theorem states what
does hold.

## Trusted base

* Coq's kernel (checked again with `coqchk` by the gate).
* The reading of the Python code: nothing here runs the code.  Every model
  definition cites the lines it stands for.
* Axioms: none.  `Print Assumptions` after every property theorem answers
  "Closed under the global context".  The gate lists `Coq.ssr.ssrunder.*`
  parameters because the standard library files we load contain them; no
  theorem uses them.

## What is modelled

| code in `/repo/trlc` | model | not in the model |
|------|-------|------|
| `lexer.py` `Lexer_Base`, `TRLC_Lexer` | `Lexer.v`, `PyText.v` | reading the file |
| `lexer.py` `Source_Reference`, `Token` text/value | `SrcRef.v`, `Lexer.v` | file name printing |
| `math.py` | `MathModel.v` | |
| `errors.py`, exit code in `trlc.py` | `Messages.v` | terminal output, message colours |
| `ast.py` `Symbol_Table`, `Scope` | `SymTab.v` | dump, `values`, `all_names` |
| `ast.py` 3425–3464 `iter_record_objects`, `iter_record_objects_by_section` | `Sections.v` | generators are lists of what they yield; an iteration that is not run to its end is not modelled |
| `trlc.py` `Source_Manager` registration, closure, order, result | `SourceMan.v` | directory walking, bazel trace files; the file parsers are an oracle |
| `nested.py`, markup lexer and parser | `Markup.v` | |
| `ast.py` types, components, inheritance, `Union_Type.get_field_map`, constructors of expressions | `Ast.v` | `dump`, `ast_link` bookkeeping, descriptions |
| `ast.py` `evaluate` of all expressions and values | `Eval.v` | text of the messages; `Fraction(str)` |
| `ast.py` `Check.perform`, `perform_checks` | `Checks.v` | |
| `parser.py` 127–223, 336–376 token buffer, matching, names | `ParserBase.v` | syntax highlighting links |
| `parser.py` 771–1537 expressions | `ParserExpr.v` | as above |
| `parser.py` 1674–1884 values | `ParserValue.v` | as above |
| `ast.py` `resolve_references` | `Resolve.v` | |
| `parser.py` 377–770, 1539–1672, 1886–1955 declarations, checks, sections, record objects | `ParserDecl.v` | description texts, syntax highlighting links |
| `parser.py` 1956–2090 preamble, files, recovery | `ParserFile.v` | as above |
| `trlc.py` 306–548 from file contents to symbol table | `Process.v` | the call of `VCG`, callbacks, bazel trace files |
| `vcg.py` translation of checks to verification conditions, and what is reported | `Vcg.v` | see below |
| `vcg.py` 441–541 values in counterexamples; `ast.py` 3064 `iter_sequence` | `Counter.v` | `create_counterexample`; what the solver gives is a parameter |
| `ast.py` 676–2280 `to_string` of literals and of the expressions of checks | `Show.v` | `to_string` of array and tuple aggregates and of record references |
| `ast.py` `fully_qualified_name`, `to_python_dict`, `to_python_object` | `Api.v` | rounding to doubles, the sign of zero |
| `lint.py` | `Lint.v`, `Imports.v` (`verify_imports`) | the order in which imports are visited, the call of `VCG`, order of messages within a type |

The grammar of expressions is the relation `syn` in `ExprSyntax.v`, on plain
token lists.  The meaning of a syntax tree is the relation `means` in
`ExprMeaning.v` (what names, literals, operators and calls stand for), and its
typing is `wt`.  `elab` in `ExprSyntax.v` is only a proof device: the
parser is `syn` followed by `elab`, and `elab` finds exactly the well-typed
meanings.  The parser works on a
token buffer fed by the lexer model (tokens, comments and lexing errors).
Symbol tables are flattened to association lists in search order there.

The notation of values is the relation `value` in `ValueSyntax.v`, written from
the manual; its flag `lax` adds the mistakes the parser tolerates.

Static semantics for the soundness proof is the relation `wt` in `Typing.v`;
the meaning of expressions is the relation `sem` in `EvalSpec.v`.  Both are
specifications written from the manual and do not mention the code.

The declaration parser runs in a monad over an environment: type tables,
object table, one name table per package, the global name table, and a counter
for object identities.  `DeclInv.v` states what declarations keep true of the
environment (`types_ok`, `names_ok`); `DeclRsl.v` and `DeclTrlc.v` prove it for
every declaration, including those that fail half-way; `DeclFrame.v` shows what
they leave alone; `ProcessInv.v` and `ProcessRun.v` lift this to whole runs.
`DeclFuel.v`, `FileFuel.v` and `ProcessFuel.v` show that every run ends: the
fuel of a file is the number of its tokens plus three, every declaration
consumes tokens, and so does every restart after an error (`Prop_File.v`).
What files declare is specified on its own: `DeclSyntax.v` is the grammar and
meaning of declarations (token lists to changes of the environment), and
`RunSyntax.v` says which files are used, in which order, and what they start
with.  `DeclSound.v`, `RunGraph.v` and `RunSound.v` prove that an accepted run
returns exactly that; `RunGraph.v` also shows that `Process.v` builds the
dependency graph of `SourceMan.v`, so the theorems about it hold for real runs.
`Notes.v` shows that the parsers report a tolerated mistake or fail, never both
or neither; `RunMessages.v` concludes what the messages of a run mean.
The flag `lax` adds the mistakes that are reported but do not stop a run.
The other way round, `DeclComplete.v` shows that declarations of the strict
grammar are accepted, `RunValid.v` says what valid files are, and `RunComplete.v`
shows that every stage of a run succeeds on them, and reports no error (C54).
`laid_out` there is validity without the checks.  `RunMeaning.v` shows that such
files are accepted exactly if the checks hold by the manual (C45), and which
objects of a run can be confused by `==` (C25).
`Hazards.v` lists the phrases on which the expression parser fails with a Python
exception, and `ParserCrash.v` shows that there are no others.  `ValueCrash.v`,
`DeclCrash.v` and `ProcessCrash.v` do the same for values, declarations and whole
runs: on complete files without these phrases (`RunHazards.v`) only the linter
and the evaluation of checks can fail (C52).  `LintRun.v` says exactly when the
linter does, and `RunLint.v` which of its messages a run reports.
`Vcg.v` is the translation of `vcg.py` as a function from types to a list of
verification conditions.  A condition is a path of assertions and definitions
together with a goal: what PyVCG makes of a graph of statements, one condition
for each way from the start to the goal, where earlier goals are assumed.  A
solver is any function to unsat, sat or unknown.  `VcgSem.v` gives the meaning of
terms as a relation between terms and values in a model (integers are unbounded,
decimals are rationals, division by zero has no value, functions and
array accesses out of range are arbitrary but well-sorted), and says when a
condition is valid.  Every model in which a path has a meaning is also one for SMT,
so unsat implies valid; this meaning is trusted, and so are the answers of the solver.
`VcgEnc.v` relates values of the language to values of SMT terms; `VcgFun.v` and
`VcgSound.v` prove by induction over expressions that translated expressions
denote what the manual says (`sem`) if the goals on the way are valid;
`VcgChecks.v` does this for lists of checks, `VcgModel.v` builds the model that
belongs to an object, and `VcgMain.v` and `VcgRun.v` put it together (C55, C56).
`VcgTotal.v` says for which types the construction succeeds (C57).
`ImportFrame.v` shows that a file which never names a package is parsed in the
same way whether or not the package is imported, and `ImportRun.v` lifts this to
whole runs (C58).
`ApiProofs.v` says what Python object stands for a value and proves that this is
what the API returns; `ApiRun.v` shows that names of objects are unique (C59).
`Sections.v` models the iteration over objects; `SectionProofs.v` states outlines
of files and follows the iteration through one; `SectionRun.v` lifts this to runs
(C60).
`Counter.v` models how values are shown in counterexamples; `CounterProofs.v` has
the arithmetic, and `CounterRead.v` reads the text back with the specification of
the lexer and of the notation of values (C61).
`Show.v` models how messages show expressions; `ShowProofs.v` says which
expressions need no brackets and reads their text back with the grammar of
expressions (C62). `Prop_Follows.v` has which checks follow references (C55).
Frozen values are shared by the objects of a type; the model copies them and
keeps their identity (`forget` is equality up to resolved references).

## Not modelled

* File system access, UTF-8 decoding, `argparse`, printing.
* Python's limit on the number of digits in `int(str)`.
* The libraries PyVCG and CVC5.  Of `vcg.py`: the declarations of SMT sorts and
  functions, writing files, the frame of counterexamples.
* Regular expression matching (`re`): an oracle parameter where needed.
