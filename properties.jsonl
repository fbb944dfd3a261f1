{"id": "C01", "title": "Lexing terminates and is lossless", "statement": "Tokenising any text terminates. If no lexical error is raised, the tokens come in source order, do not overlap, each covers at least one character, the source text of every token is exactly the slice of the file its location points at, and everything between two tokens (and before the first, after the last) is whitespace only. So no character of the file is ever dropped or read twice.", "quantifier": "every finite Unicode text", "why_tests_cant": "Tests tokenise a fixed set of sample files; losing one character or looping forever can depend on any combination of characters at any position, in particular at the end of the file.", "anchors": ["trlc/lexer.py: TRLC_Lexer.token, Lexer_Base.advance, Lexer_Base.skip_whitespace, Token_Stream"]}
{"id": "C02", "title": "Line and column of every token are right", "statement": "The line number attached to a token is one plus the number of newline characters before its first character, and its column is the distance from the last newline before it (or from the start of the file), counting from one.", "quantifier": "every text and every token the lexer produces from it", "why_tests_cant": "Messages are located by these numbers; an off-by-one that only shows after particular newline/comment/string combinations is not found by sampling.", "anchors": ["trlc/lexer.py: Lexer_Base.advance, TRLC_Lexer.token, Source_Reference"]}
{"id": "C03", "title": "Identifiers and keywords are maximal and classified exactly", "statement": "Where the lexer starts an identifier it consumes the longest run of ASCII letters, digits and underscores, and the token is a keyword exactly when its text is one of the 32 reserved words; an identifier token never carries reserved text.", "quantifier": "every text", "why_tests_cant": "Maximal munch is a statement about every continuation of every prefix.", "anchors": ["trlc/lexer.py: TRLC_Lexer.token, TRLC_Lexer.KEYWORDS, Lexer_Base.is_alpha, Lexer_Base.is_alnum"]}
{"id": "C04", "title": "Multi-character delimiters are never split", "statement": "The symbols ==, =>, !=, <=, >=, ** and .. are always read as one token when their two characters are adjacent at a token start, and a lone ! is an error; a number followed by .. is not read as a decimal.", "quantifier": "every text", "why_tests_cant": "The disambiguation rule speaks about every pair of adjacent characters in every context.", "anchors": ["trlc/lexer.py: TRLC_Lexer.token, TRLC_Lexer.PUNCTUATION"]}
{"id": "C05", "title": "Integer literals denote their positional value", "statement": "Every integer literal the lexer accepts (decimal, 0b binary, 0x hexadecimal, with single underscores between digits) gets the value of its digits in its base, and every natural number written in decimal, binary or hexadecimal is read back as the same number.", "quantifier": "every accepted literal of any length; every natural number", "why_tests_cant": "Literals are unbounded in length; grouping underscores may appear in exponentially many places.", "anchors": ["trlc/lexer.py: TRLC_Lexer.token (INTEGER)"]}
{"id": "C06", "title": "Decimal literals denote their exact rational value", "statement": "Every decimal literal the lexer accepts gets the exact rational (integer part plus fraction digits over a power of ten), independent of underscores.", "quantifier": "every accepted decimal literal of any length", "why_tests_cant": "Exactness for every number of digits cannot be sampled.", "anchors": ["trlc/lexer.py: TRLC_Lexer.token (DECIMAL)"]}
{"id": "C07", "title": "Double-quoted strings round-trip", "statement": "Writing any string that has no newline and does not end in a backslash between double quotes, with each double quote escaped by a backslash, yields one string token whose value is the original string.", "quantifier": "every string without newline that does not end in a backslash", "why_tests_cant": "Backslash/quote interaction has unboundedly many patterns.", "anchors": ["trlc/lexer.py: TRLC_Lexer.token (STRING)"]}
{"id": "C08", "title": "Triple-quoted strings extend to the first closing triple", "statement": "A triple-quoted string ends at the first three consecutive closing quotes after the opening ones, wherever that is in the file (including as the very last characters of the file).", "quantifier": "every text with a triple-quoted string", "why_tests_cant": "Interplay of runs of quotes and the end of file; the failing case needs the closing quotes to be the last characters of the file.", "anchors": ["trlc/lexer.py: TRLC_Lexer.token (STRING)"]}
{"id": "C09", "title": "Triple-quoted string values are dedented and trimmed", "statement": "The value of a triple-quoted string has no leading or trailing whitespace as a whole, keeps the number of lines, every continuation line is the source line with one common prefix of blanks removed and no trailing whitespace, and (as the reference manual says) trailing whitespace is removed from every line.", "quantifier": "every raw triple-quoted text", "why_tests_cant": "Indentation and whitespace combinations are unbounded.", "anchors": ["trlc/lexer.py: triple_quoted_string_value"]}
{"id": "C10", "title": "Comments have no effect and end where they should", "statement": "A // comment covers everything up to but not including the next newline or the end of the file. A /* comment covers everything up to the first */ after the opening. The parser never sees a comment token.", "quantifier": "every text", "why_tests_cant": "Any character sequence may appear inside a comment.", "anchors": ["trlc/lexer.py: TRLC_Lexer.token (COMMENT)", "trlc/parser.py: Parser_Base.advance"]}
{"id": "C11", "title": "End location of a multi-line construct is right", "statement": "The end location reported for a source range names the line and column of its last character.", "quantifier": "every text and every range inside it", "why_tests_cant": "Depends on where newlines are relative to the range, including at the very start of the file.", "anchors": ["trlc/lexer.py: Source_Reference.get_end_location"]}
{"id": "C12", "title": "Remainder is a true remainder", "statement": "For integers x and non-zero y, x % y differs from x by a multiple of y, has absolute value less than |y|, is odd-symmetric in x (so -a % b can be read either way), and its sign follows the reference manual.", "quantifier": "all integers x and all non-zero integers y", "why_tests_cant": "The domain is infinite and sign combinations interact with the floor division of the implementation language.", "anchors": ["trlc/math.py: remainder", "trlc/ast.py: Binary_Expression.evaluate"]}
{"id": "C13", "title": "Integer division is floor division", "statement": "For integers x and non-zero y, x / y is the greatest integer not above the exact quotient; division by zero is reported as an error and never produces a value.", "quantifier": "all integers", "why_tests_cant": "Infinite domain with sign cases.", "anchors": ["trlc/ast.py: Binary_Expression.evaluate"]}
{"id": "C14", "title": "Integer conversion rounds to nearest, ties away from zero", "statement": "Converting a rational to Integer yields an integer at distance at most one half; when two integers are equally near, the one with larger magnitude is chosen; integral rationals convert to themselves.", "quantifier": "all rationals", "why_tests_cant": "Infinite domain; ties form a measure-zero subset that sampling misses.", "anchors": ["trlc/math.py: round_nearest_away"]}
{"id": "C15", "title": "Message counters and suppression", "statement": "Over any sequence of reported messages, the error counter equals the number of error messages, the warning counter the number of warnings and lint issues, the suppressed counter the number of messages of suppressed kinds, and exactly the others are printed, in order; suppression never hides a fatal error from the caller.", "quantifier": "every sequence of messages and suppressions", "why_tests_cant": "Histories are unbounded and suppression may be switched on between messages.", "anchors": ["trlc/errors.py: Message_Handler"]}
{"id": "C16", "title": "Command line exit code", "statement": "The tool exits with 0 exactly when processing succeeded and no error was counted, and (with --error-on-warnings) no warning was counted; otherwise it exits with 1.", "quantifier": "every outcome of processing and every combination of flags", "why_tests_cant": "All counter values and flag combinations.", "anchors": ["trlc/trlc.py: trlc"]}
{"id": "C17", "title": "No two declarations share a simplified name", "statement": "After any sequence of registrations into a scope table, the simplified names (lower case, underscores removed) of all its entries are pairwise distinct, and none of them collides with an entry of an enclosing table; a registration that would break this is rejected and leaves the table unchanged.", "quantifier": "every sequence of declarations, every nesting depth", "why_tests_cant": "Collisions depend on the whole history of declarations.", "anchors": ["trlc/ast.py: Symbol_Table.register, Symbol_Table.contains_raw, Symbol_Table.simplified_name"]}
{"id": "C18", "title": "Lookup finds exactly what was registered", "statement": "Looking a name up returns the entity registered under exactly that spelling in the nearest table, and fails for every name never registered, including ones that only differ in case or underscores.", "quantifier": "every sequence of declarations and every name", "why_tests_cant": "Depends on the full history.", "anchors": ["trlc/ast.py: Symbol_Table.lookup, Symbol_Table.lookup_direct, Symbol_Table.contains, Scope.lookup"]}
{"id": "C19", "title": "Record extension is a partial order", "statement": "The is-an-extension-of relation used for references, equality and unions is reflexive, transitive and antisymmetric, and agrees with the chain of extends clauses.", "quantifier": "every set of record type declarations the parser can build", "why_tests_cant": "Inheritance chains have unbounded depth.", "anchors": ["trlc/ast.py: Record_Type.is_subclass_of"]}
{"id": "C20", "title": "Inherited checks run base first and in order", "statement": "The checks evaluated for an object are, in this order, all checks of its most distant ancestor, then of each extension down to its own type, each block in declaration order, each check once.", "quantifier": "every inheritance chain and every set of checks", "why_tests_cant": "Unbounded chains and check counts.", "anchors": ["trlc/ast.py: Record_Type.iter_checks, Composite_Type.iter_checks, Record_Object.perform_checks"]}
{"id": "C21", "title": "Check severity semantics", "statement": "A failing warning check only emits a message; a failing error check makes the object fail but later checks still run; a failing fatal check makes the object fail and no further check of the object runs; an object succeeds iff no error or fatal check evaluated to false.", "quantifier": "every list of checks with every outcome", "why_tests_cant": "All combinations of severities and outcomes.", "anchors": ["trlc/ast.py: Check.perform, Record_Object.perform_checks"]}
{"id": "C22", "title": "Evaluation of well-typed expressions never crashes", "statement": "Evaluating an expression that passed the static type rules, against any record object of the right type, either returns a value of the static type, or null where allowed, or reports a located error; it never fails with an internal error of the tool.", "quantifier": "every well-typed expression of any depth and every well-typed object", "why_tests_cant": "The set of expressions and objects is infinite; crashes hide in null/bounds corner cases.", "anchors": ["trlc/ast.py: Expression.evaluate (all subclasses), Binary_Expression.__init__"]}
{"id": "C23", "title": "Logical operators short-circuit", "statement": "`and`, `or`, `implies` evaluate their right side exactly when the left side does not decide the result; the value is the usual truth table.", "quantifier": "all operand expressions", "why_tests_cant": "Includes operands whose evaluation would report an error.", "anchors": ["trlc/ast.py: Binary_Expression.evaluate"]}
{"id": "C24", "title": "Quantifiers mean conjunction and disjunction over the array", "statement": "A forall is true iff the predicate is true of all elements, an exists is true iff it is true of at least one; on the empty array they are true and false respectively.", "quantifier": "every array length and every predicate", "why_tests_cant": "Unbounded arrays.", "anchors": ["trlc/ast.py: Quantified_Expression.evaluate"]}
{"id": "C25", "title": "Equality is identity of what is denoted", "statement": "`==` is true iff both sides are null, or both are equal values of the operand type: same number/string/literal, arrays of the same length with equal elements, tuples with equal fields, references to the same record object; `!=` is its negation.", "quantifier": "all values, arbitrarily nested", "why_tests_cant": "Nested arrays/tuples/references of any depth.", "anchors": ["trlc/ast.py: Binary_Expression.evaluate, Value.__eq__"]}
{"id": "C26", "title": "Membership tests", "statement": "`x in a .. b` means x >= a and x <= b (false for empty ranges); `s in t` for strings is true iff s occurs as a contiguous part of t; `x in array` is true iff some element equals x; the `not in` forms are the negations.", "quantifier": "all operands", "why_tests_cant": "Infinite domains.", "anchors": ["trlc/ast.py: Range_Test.evaluate, Binary_Expression.evaluate"]}
{"id": "C27", "title": "oneof counts exactly one", "statement": "oneof is true iff exactly one parameter is true; conditional expressions return the branch of the first true condition, else the else branch, without evaluating later conditions.", "quantifier": "any number of parameters or branches", "why_tests_cant": "Unbounded arity.", "anchors": ["trlc/ast.py: OneOf_Expression.evaluate, Conditional_Expression.evaluate"]}
{"id": "C28", "title": "Null is rejected everywhere but in equality", "statement": "Any operator other than == and != applied to a null operand reports an error and yields no value.", "quantifier": "every operator and every operand that evaluates to null", "why_tests_cant": "Which operand is null depends on every object that omits an optional component.", "anchors": ["trlc/ast.py: Unary_Expression.evaluate, Binary_Expression.evaluate, OneOf_Expression.evaluate, Quantified_Expression.evaluate"]}
{"id": "C29", "title": "Array bounds are enforced", "statement": "An array value is accepted without a message iff its number of elements lies between the declared lower and upper bound.", "quantifier": "every array type and every number of elements", "why_tests_cant": "All combinations of bounds and sizes.", "anchors": ["trlc/parser.py: Parser.parse_value (array)"]}
{"id": "C30", "title": "Tuple values have the declared form", "statement": "A separator-form tuple value contains the declared separators in order between the values; only a trailing run of optional fields (with their separators) may be left out; the generic form provides one value per field.", "quantifier": "every tuple type and every token sequence", "why_tests_cant": "Any number of fields and any token sequence.", "anchors": ["trlc/parser.py: Parser.parse_value (tuple)"]}
{"id": "C31", "title": "Accepted record objects are complete and consistent", "statement": "An accepted record object has a value for every component of its type: a given one, the frozen one, or null only for optional components; no component is assigned twice; a frozen component is never assigned; an abstract type is never instantiated.", "quantifier": "every record type and every body of assignments", "why_tests_cant": "Any number of components, inheritance depth and order of assignments.", "anchors": ["trlc/parser.py: Parser.parse_record_object_declaration", "trlc/ast.py: Record_Object.assign, Record_Type.is_frozen, Record_Type.get_freezing_expression"]}
{"id": "C32", "title": "References resolve to an object of the right type", "statement": "After reference resolution succeeds, every reference in every object denotes a declared record object of the named package whose type is the required type or an extension (or, for a union, compatible with one of its members); otherwise an error is reported.", "quantifier": "every set of files", "why_tests_cant": "Forward references and cycles between any number of objects.", "anchors": ["trlc/ast.py: Record_Reference.resolve_references, Union_Type.is_compatible"]}
{"id": "C33", "title": "Union field map", "statement": "For a union type, the field map has exactly the components of its member types, counts in how many members each occurs and reports a conflict iff two members give it different types.", "quantifier": "every union", "why_tests_cant": "Any number of members and components.", "anchors": ["trlc/ast.py: Union_Type.get_field_map, Union_Type.is_compatible"]}
{"id": "C34", "title": "Exactly the needed files are parsed", "statement": "Given primary files and include files, the set of packages parsed is exactly the set reachable from the packages of primary files through imports; the result does not depend on the order in which the work set is emptied.", "quantifier": "every import graph and every order", "why_tests_cant": "The implementation pops from a Python set, so every pop order is a different schedule.", "anchors": ["trlc/trlc.py: Source_Manager.build_graph"]}
{"id": "C35", "title": "Packages are parsed after the packages they import", "statement": "Package type files are parsed in an order in which each package comes after everything it imports, each exactly once; an import cycle is reported iff the import graph of the needed packages has one.", "quantifier": "every import graph", "why_tests_cant": "Arbitrary graphs of any size.", "anchors": ["trlc/trlc.py: Source_Manager.parse_rsl_files"]}
{"id": "C36", "title": "Processing result tells the truth", "statement": "Processing returns a symbol table iff no error was reported during processing, and nothing otherwise.", "quantifier": "every set of input files", "why_tests_cant": "Any error in any phase at any file.", "anchors": ["trlc/trlc.py: Source_Manager.process"]}
{"id": "C37", "title": "Messages inside strings point at the right source characters", "statement": "A message located inside the contents of a string literal (markup references) points at exactly the characters of the source file that produced them, even with escaped quotes before or inside.", "quantifier": "every string literal and every range in its contents", "why_tests_cant": "Any number and placement of escapes.", "anchors": ["trlc/nested.py: Nested_Lexer.source_location"]}
{"id": "C38", "title": "Markup references are found exactly", "statement": "The references of a markup string are exactly the comma-separated names inside [[ ]]; unbalanced or nested brackets are errors; text outside brackets is ignored.", "quantifier": "every string", "why_tests_cant": "Any text, any number of references.", "anchors": ["trlc/parser.py: Markup_Lexer.token, Markup_Parser"]}
{"id": "C39", "title": "Lint verdict on array types", "statement": "The linter flags an array type iff its bounds are impossible (lower above upper, or upper zero) or pointless (upper bound one with lower bound zero or one).", "quantifier": "all pairs of bounds", "why_tests_cant": "Infinite domain.", "anchors": ["trlc/lint.py: Linter.verify_array_type"]}
{"id": "C40", "title": "Abstract leaf types are reported exactly", "statement": "With linting, an abstract record type is reported iff no concrete type extends it directly or through abstract types only.", "quantifier": "every set of record types", "why_tests_cant": "Any inheritance forest and visiting order.", "anchors": ["trlc/lint.py: Linter.verify_record_type, Linter.perform_sanity_checks"]}
{"id": "C41", "title": "Operator precedence and association", "statement": "Printing an expression with the parentheses the grammar requires and parsing it gives back the same expression; chains of the same operator category associate to the left; mixing and/or/xor/implies without parentheses is rejected.", "quantifier": "every expression of any depth", "why_tests_cant": "The set of expressions is infinite.", "anchors": ["trlc/parser.py: Parser.parse_expression .. parse_primary"]}
{"id": "C42", "title": "Parser error recovery always makes progress", "statement": "After an error in a type file the parser skips to the next declaration keyword; for every token sequence parsing a file ends after finitely many steps and each declaration keyword starts at most one parse attempt.", "quantifier": "every token sequence", "why_tests_cant": "Non-termination depends on the exact token at which the error happens.", "anchors": ["trlc/parser.py: Parser.parse_rsl_file, Parser.parse_trlc_file"]}
{"id": "C43", "title": "The source excerpt of a message marks exactly its location", "statement": "The excerpt printed with a message is the line on which the location starts, without its indentation, and the carets below stand exactly under those characters of the location that are on this line.", "quantifier": "every text and every location inside it that starts at a non-blank character (as every token does)", "why_tests_cant": "Indentation, tabs, multi-line locations and the ends of the file combine without bound.", "anchors": ["trlc/lexer.py: Source_Reference.context_lines"]}
{"id": "C44", "title": "can_be_null is a safe over-approximation", "statement": "If a well-typed expression evaluates to null for some object then can_be_null of the expression is true.", "quantifier": "every well-typed expression and every well-typed object", "why_tests_cant": "Null arises only for particular combinations of optional fields, nested accesses and operators.", "anchors": ["trlc/ast.py: Expression.can_be_null (all subclasses)"]}
{"id": "C45", "title": "Evaluation computes the meaning given in the language reference manual", "statement": "The manual's rules give at most one meaning to a check expression for an object; evaluation returns that meaning if there is one, and reports an error exactly if there is none.", "quantifier": "every well-typed expression of any depth and every well-typed object", "why_tests_cant": "The rules for all operators, quantifiers, field accesses and nested values interact; the set of expressions and objects is infinite.", "anchors": ["trlc/ast.py: Expression.evaluate (all subclasses)", "language-reference-manual/lrm.trlc: sections on expressions"]}
{"id": "C46", "title": "The linter reports ambiguous separators and always comes to an end", "statement": "Linting any set of declared types ends without an exception, and a separator of a tuple type is reported iff it is an x or b that follows an integer component.", "quantifier": "every set of declared types, with tuples of any length", "why_tests_cant": "The flags of the loop over a tuple's items persist across items, so failures need particular combinations of components and separators.", "anchors": ["trlc/lint.py: Linter.verify_tuple_type, Linter.verify_type", "trlc/ast.py: Tuple_Type.iter_sequence, get_example_value"]}
{"id": "C47", "title": "Redundant union types are reported exactly", "statement": "With linting, a union type is reported as single iff it has exactly one member, and a pair of members is reported iff one of them is a direct or transitive extension of the other.", "quantifier": "every set of record types and every union type", "why_tests_cant": "Any inheritance forest and any list of members.", "anchors": ["trlc/lint.py: Linter.verify_type", "trlc/ast.py: Record_Type.is_subclass_of"]}
{"id": "C48", "title": "Accepted check expressions are well typed", "statement": "Every expression the parser accepts in a check block is well typed by the rules of the manual, with the types of the components of the checked type.", "quantifier": "every token sequence, every set of declared types", "why_tests_cant": "The typing rules are enforced by dozens of separate checks in the constructors, and must compose for expressions of any depth.", "anchors": ["trlc/parser.py: Parser.parse_expression .. parse_name", "trlc/ast.py: constructors of expressions"]}
{"id": "C49", "title": "The expression parser reports errors and raises no other exceptions", "statement": "For every token sequence the expression parser returns an expression or reports an error; it does not raise AttributeError, AssertionError or TypeError.", "quantifier": "every token sequence", "why_tests_cant": "Needs ill-formed inputs at every place where the code uses an attribute that may be missing.", "anchors": ["trlc/parser.py: Parser.parse_expression .. parse_name"]}
{"id": "C50", "title": "Division of a negated number", "statement": "For integers a and b, -a / b is the floor division of -a by b (the manual: -5 / 2 is -3).", "quantifier": "all integers a and b", "why_tests_cant": "Depends on sign and divisibility.", "anchors": ["trlc/parser.py: Parser.parse_simple_expression", "language-reference-manual/lrm.trlc: Integer_Division_Semantics"]}
{"id": "C51", "title": "An accepted run leaves a consistent model", "statement": "If processing returns a symbol table then all its objects, types and values meet the rules of the language: the type hierarchy is acyclic, component names are distinct along it, every field of every object holds a value of its type or an allowed null, and all references are resolved. The theorems about evaluation apply to every symbol table that is returned.", "quantifier": "every list of input files and every accepted run", "why_tests_cant": "The invariant must survive every sequence of declarations, including failed ones followed by recovery.", "anchors": ["trlc/trlc.py: Source_Manager.process", "trlc/parser.py: Parser.parse_rsl_file, Parser.parse_trlc_file"]}
{"id": "C52", "title": "Processing never ends with an internal error", "statement": "For every set of files processing ends with a symbol table or with reported errors; no Python exception other than the reported errors leaves it.", "quantifier": "every list of input files", "why_tests_cant": "Internal errors hide in error paths of malformed files.", "anchors": ["trlc/trlc.py: Source_Manager.process", "trlc/parser.py: Parser", "trlc/ast.py: Compilation_Unit.is_visible"]}
{"id": "C53", "title": "The symbol table is what the files declare", "statement": "If processing returns a symbol table, its packages are those the files declare, its types are what the needed type files declare one after the other (imports first), its objects are what the needed requirement files declare one after the other, with the values written there, and nothing else changes but that references get their targets. Every needed file is exactly a preamble followed by declarations of the grammar.", "quantifier": "every list of input files and every accepted run", "why_tests_cant": "The correspondence between text and symbol table is over unboundedly many files, nestings and declarations.", "anchors": ["trlc/parser.py: Parser.parse_rsl_file, Parser.parse_trlc_file, Parser.parse_type_declaration, Parser.parse_record_object_declaration", "trlc/trlc.py: Source_Manager.process, Source_Manager.build_graph"]}
{"id": "C54", "title": "Valid files are accepted, and what they describe is unique", "statement": "If every file is written as the manual says (a preamble, then declarations whose names, types and values are right), package names are not too similar, dependencies between type files can be ordered, all references have a target of the right type, and all checks that are not warnings hold, then processing returns a symbol table, namely the one that the files describe. This is so with and without error recovery and for every order in which dependencies are looked at. No two different symbol tables are described by the same files. The only errors reported for such files are about files that cannot be read and about imports of packages that do not exist; if there are none of these, no error is reported.", "quantifier": "every list of input files", "why_tests_cant": "Rejecting something valid is a mistake of omission: tests contain only the valid files that their authors thought of.", "anchors": ["trlc/trlc.py: Source_Manager.process, Source_Manager.build_graph, Source_Manager.parse_rsl_files, Source_Manager.parse_trlc_files, Source_Manager.resolve_record_references, Source_Manager.perform_checks", "trlc/parser.py: Parser.parse_rsl_file, Parser.parse_trlc_file"]}
{"id": "C55", "title": "Verified checks do not fail at run time", "statement": "If 'trlc --verify' reports no possible null dereference, division by zero or array index problem for a record type and the types it extends, then performing the checks of the type on any object that is legal for the type (values of the declared types, array lengths within bounds, frozen values as declared, tuple values that pass the checks of their type) never ends in an evaluation error: every check gives true or false. The same holds for tuple types and their values.", "quantifier": "every set of types, every object, every solver whose 'unsat' answers are right", "why_tests_cant": "Soundness of the translation to verification conditions is a statement about all models of all formulas; tests compare the reports of the tool for fixed checks.", "anchors": ["trlc/vcg.py: VCG.analyze, VCG.checks_on_composite_type, VCG.tr_component_decl, VCG.tr_check, VCG.tr_expression", "trlc/ast.py: Check.perform, Record_Object.perform_checks"]}
{"id": "C56", "title": "Checks reported as always true are always true", "statement": "If 'trlc --verify' reports a check of a type as always true, and reports no possible evaluation error for the type and its ancestors, then the check holds for every legal object of the type for which the fatal checks before it hold.", "quantifier": "every set of types, every object, every solver whose 'unsat' answers are right", "why_tests_cant": "A wrong report about a check can only be seen with an object on which the check fails, and there are infinitely many objects.", "anchors": ["trlc/vcg.py: VCG.attach_feasability_check, VCG.checks_on_composite_type, VCG.tr_check"]}
{"id": "C57", "title": "Static verification never ends with an internal error", "statement": "For every accepted type declaration the construction of verification conditions succeeds or stops with the warning that something is not supported.", "quantifier": "every set of types with well-typed checks", "why_tests_cant": "Which combination of nested constructs reaches an unsupported branch depends on the whole expression; tests contain few nestings.", "anchors": ["trlc/vcg.py: VCG.analyze, VCG.tr_expression, VCG.attach_validity_check, VCG.tr_quantified_expression"]}
{"id": "C58", "title": "Unused imports are unused", "statement": "If the linter reports an import as unused, then the run has the same result and the same messages if that import is taken away from the file. Conversely an import without which the run is the same is reported.", "quantifier": "every set of files that is accepted, every choice of reported imports", "why_tests_cant": "The linter counts tokens and not uses of names; whether the count agrees with name resolution depends on every construct in which a name can occur.", "anchors": ["trlc/lint.py: Linter.verify_imports, Linter.markup_ref", "trlc/parser.py: Parser.parse_record_object_declaration", "trlc/trlc.py: Source_Manager.process"]}
{"id": "C59", "title": "The Python API shows the values of objects", "statement": "For every object of an accepted run, to_python_dict returns a dictionary with exactly one entry for each component of the type, in order, and each entry shows the value of the component: numbers, strings and Booleans as themselves, enumeration literals by name, arrays as lists, tuples as dictionaries, references as the fully qualified name of the object that is referred to, absent values as None. Fully qualified names tell objects apart, and objects of one type with equal dictionaries have equal values.", "quantifier": "every accepted set of files, every object, every component", "why_tests_cant": "Values are nested without bound, and no exception for any value and injectivity of names are statements about all objects of all runs.", "anchors": ["trlc/ast.py: Record_Object.to_python_dict, Record_Object.fully_qualified_name", "trlc/ast.py: Expression.to_python_object and its overrides"]}
{"id": "C60", "title": "Iteration by section follows the files", "statement": "For every accepted run, iter_record_objects yields every object exactly once. The first iter_record_objects_by_section yields, package by package and file by file, the name of the file and then the sections and objects in the order in which they are written, each section announced once, before its first object, with its depth, and each object with the depth of its innermost section. Every iteration yields the same, and the result tells which objects are in which section.", "quantifier": "every accepted set of files, every nesting of sections, every number of iterations", "why_tests_cant": "Sections nest without bound and the traversal depends on state that is kept between objects and between calls.", "anchors": ["trlc/ast.py: Symbol_Table.iter_record_objects", "trlc/ast.py: Symbol_Table.iter_record_objects_by_section", "trlc/parser.py: Parser.parse_section_declaration"]}
{"id": "C61", "title": "Counterexamples show the values of the solver", "statement": "Whatever the solver gives for a component of a type of an accepted run is shown without an exception. Fractions with finitely many decimal places are shown as the decimal literal for exactly this number, and different references have different names. What is shown is notation of the language for the same value: reading it back gives the value, for nested arrays and tuples too, with omitted optional fields.", "quantifier": "every accepted set of files, every type of a component, every value of any size and nesting", "why_tests_cant": "Numbers, strings, arrays and nested tuples are unbounded, and the loops of the digit expansion end for every denominator only by an argument about divisors of powers of ten.", "anchors": ["trlc/vcg.py: VCG.value_to_trlc", "trlc/vcg.py: VCG.fraction_to_decimal_string", "trlc/ast.py: Tuple_Type.iter_sequence"]}
{"id": "C62", "title": "Messages show the expressions they are about", "statement": "The text in which a message shows the expression of a check can be read back: it is a phrase of the grammar for the same expression, so that different expressions are shown differently. This holds for the expressions that need no brackets and whose literals are integers, null and those of enumerations; it fails for the others.", "quantifier": "every expression of any size and nesting", "why_tests_cant": "Expressions are nested without bound, and whether an operand needs brackets depends on the operators on both sides of every nesting level.", "anchors": ["trlc/ast.py: Unary_Expression.to_string", "trlc/ast.py: Binary_Expression.to_string", "trlc/ast.py: Conditional_Expression.to_string", "trlc/ast.py: Quantified_Expression.to_string"]}
