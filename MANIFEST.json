{
 "claims": [
  {
   "property": "C01",
   "status": "partial",
   "theorems": [
    "C01_terminates",
    "C01_lossless",
    "C01_complete",
    "C01_errors_justified",
    "C01_no_crash_refuted",
    "C01_crashes_exactly",
    "C01_unambiguous"
   ],
   "note": "Lossless, complete, terminating and error-justified in full; crash freedom is false (refuted) and the crashing files are characterised exactly."
  },
  {
   "property": "C02",
   "status": "partial",
   "theorems": [
    "C02_token_locations",
    "C02_locations_unique",
    "C02_error_locations",
    "C02_error_range_refuted"
   ],
   "note": "Tokens and errors carry the line/column of their first character; for number errors the range starts elsewhere (refuted)."
  },
  {
   "property": "C03",
   "status": "proved",
   "theorems": [
    "C03_words",
    "C03_only_words"
   ],
   "note": "Full."
  },
  {
   "property": "C04",
   "status": "proved",
   "theorems": [
    "C04_two_characters",
    "C04_bang",
    "C04_range_after_number"
   ],
   "note": "Full."
  },
  {
   "property": "C05",
   "status": "proved",
   "theorems": [
    "C05_value",
    "C05_literals",
    "C05_all_numbers"
   ],
   "note": "Full: value, acceptance of all literals, existence of a literal for every number."
  },
  {
   "property": "C06",
   "status": "proved",
   "theorems": [
    "C06_value",
    "C06_literals"
   ],
   "note": "Full."
  },
  {
   "property": "C07",
   "status": "proved",
   "theorems": [
    "C07_round_trip",
    "C07_value"
   ],
   "note": "Full."
  },
  {
   "property": "C08",
   "status": "partial",
   "theorems": [
    "C08_first_closing_partial",
    "C08_end_of_file_refuted"
   ],
   "note": "Holds unless the closing quotes are the last characters of the file, where the lexer always reports an error (refuted in general)."
  },
  {
   "property": "C09",
   "status": "partial",
   "theorems": [
    "C09_value_partial",
    "C09_every_line_trimmed_refuted"
   ],
   "note": "Complete description of the value; the manual's claim about trailing white space is false for the first line (refuted)."
  },
  {
   "property": "C10",
   "status": "partial",
   "theorems": [
    "C10_line_comment",
    "C10_block_comment_partial",
    "C10_only_comments",
    "C10_block_comment_refuted"
   ],
   "note": "Line comments in full; a block comment may be closed by its own opening asterisk (refuted)."
  },
  {
   "property": "C11",
   "status": "partial",
   "theorems": [
    "C11_end_location_partial",
    "C11_end_location_refuted"
   ],
   "note": "Holds if a newline lies in positions 2..end or none in 0..1 and the range does not end in a newline; false otherwise (refuted)."
  },
  {
   "property": "C12",
   "status": "partial",
   "theorems": [
    "C12_remainder_partial",
    "C12_remainder_odd",
    "C12_remainder_zero",
    "C12_lrm_sign_refuted",
    "C12_lrm_sign_partial"
   ],
   "note": "True remainder with the sign of the left operand; the manual's sign rule is false (refuted)."
  },
  {
   "property": "C13",
   "status": "proved",
   "theorems": [
    "C13_floor_division",
    "C13_division_by_zero"
   ],
   "note": "Full for the arithmetic; the evaluator part (division by zero is reported) is in the expression model."
  },
  {
   "property": "C14",
   "status": "proved",
   "theorems": [
    "C14_round_nearest_away",
    "C14_round_integral",
    "C14_round_well_defined"
   ],
   "note": ""
  },
  {
   "property": "C15",
   "status": "proved",
   "theorems": [
    "C15_counters",
    "C15_fatal_not_hidden",
    "C15_numbers",
    "C15_brief_format"
   ],
   "note": "Full."
  },
  {
   "property": "C16",
   "status": "proved",
   "theorems": [
    "C16_exit_code"
   ],
   "note": "Full."
  },
  {
   "property": "C17",
   "status": "proved",
   "theorems": [
    "C17_accepted_run",
    "C17_members_run",
    "C17_distinct",
    "C17_register",
    "C17_add_entry",
    "C17_enclosing",
    "C17_order_matters"
   ],
   "note": "Full for any history; together with enclosing tables if these get no entries after the inner table has some (shown to be needed). C17_accepted_run: the tables of every accepted run; C17_members_run: literals of enumerations, fields of tuples and components of records (with inherited ones) differ by more than case and underscores."
  },
  {
   "property": "C18",
   "status": "proved",
   "theorems": [
    "C18_lookup_sound",
    "C18_lookup_complete",
    "C18_contains",
    "C18_scope_lookup",
    "C18_scope_contains"
   ],
   "note": "Full."
  },
  {
   "property": "C19",
   "status": "proved",
   "theorems": [
    "C19_partial_order",
    "C19_agrees",
    "C19_ancestors_chain",
    "C19_union_compatible"
   ],
   "note": "Hypothesis: a type extends only types declared before it (the parser looks the parent up before creating the type)."
  },
  {
   "property": "C20",
   "status": "proved",
   "theorems": [
    "C20_check_order",
    "C20_unique_order",
    "C20_component_order"
   ],
   "note": "As C19. Also covers inherited components and frozen values."
  },
  {
   "property": "C21",
   "status": "partial",
   "theorems": [
    "C21_check_list",
    "C21_object_accepted",
    "C21_object_order",
    "C21_object_messages",
    "C21_all_objects",
    "C21_error_counter",
    "C21_array_elements_refuted",
    "C21_nested_tuple_refuted",
    "C21_accepted_run"
   ],
   "note": "Hypothesis: evaluation of each check ends with a Boolean, null or a reported error (evaluation does not crash). Two deviations from the manual are proved: elements of an array of tuples after the first failing one are not checked, and tuples nested in tuples are never checked. C21_accepted_run needs no such hypothesis: in every accepted run all checks of all objects hold, except for warnings."
  },
  {
   "property": "C22",
   "status": "partial",
   "theorems": [
    "C22_well_typed_partial",
    "C22_no_exception_partial",
    "C22_index_refuted",
    "C22_null_predicate_refuted",
    "C22_union_refuted",
    "C22_static_refuted"
   ],
   "note": "Proved: a well-typed expression evaluates to a value of its type, or null where the expression can be null, or a reported error; Python exceptions only through an index expression or a quantifier with a nullable predicate (C22_no_exception_partial excludes them). Refuted in four ways: index equal to the array length (IndexError), null predicate (AssertionError), a union member extension that declares the field with another type, and a quantifier inside a static expression. Well-typedness is the relation wt of Typing.v."
  },
  {
   "property": "C23",
   "status": "proved",
   "theorems": [
    "C23_short_circuit",
    "C23_truth_table",
    "C23_left_error"
   ],
   "note": "For all operands, including ones whose evaluation would fail."
  },
  {
   "property": "C24",
   "status": "proved",
   "theorems": [
    "C24_quantifiers",
    "C24_empty",
    "C24_stops"
   ],
   "note": "For every array and every predicate; also that elements after the deciding one do not matter."
  },
  {
   "property": "C25",
   "status": "partial",
   "theorems": [
    "C25_equality_partial",
    "C25_reference_refuted",
    "C25_run",
    "C25_run_refuted"
   ],
   "note": "Proved for types without nested restriction under distinct_objects (no two objects store identical values). Refuted without it: references to two objects without components compare equal. C25_run: in an accepted run, objects that store the same values have frozen components only. C25_run_refuted: there are such files, and a check that is false by the manual is accepted."
  },
  {
   "property": "C26",
   "status": "partial",
   "theorems": [
    "C26_range",
    "C26_empty_range",
    "C26_substring",
    "C26_member_partial",
    "C26_not_in",
    "C26_markup_refuted"
   ],
   "note": "Range, substring and not-in fully; array membership for an operand of the element type. Refuted for a markup string in an array of strings (accepted by the type rules, never found)."
  },
  {
   "property": "C27",
   "status": "proved",
   "theorems": [
    "C27_oneof",
    "C27_conditional",
    "C27_else"
   ],
   "note": "oneof for parameters that have truth values; conditionals for any branches."
  },
  {
   "property": "C28",
   "status": "partial",
   "theorems": [
    "C28_null_partial",
    "C28_logic_refuted"
   ],
   "note": "All operand positions but the right side of and/or/implies, quantifier predicates and oneof parameters; refuted for those."
  },
  {
   "property": "C29",
   "status": "partial",
   "theorems": [
    "C29_bounds",
    "C29_zero_refuted"
   ],
   "note": "C29_bounds: every accepted array gets a size message exactly if it is outside the bounds, for every array type whose upper bound is not 0. C29_zero_refuted: an upper bound of 0 is never enforced, because the code tests it for truth."
  },
  {
   "property": "C30",
   "status": "partial",
   "theorems": [
    "C30_accepts_notations",
    "C30_accepts_all_notations",
    "C30_unambiguous",
    "C30_terminates",
    "C30_generic_form",
    "C30_omitted_fields",
    "C30_separators_partial",
    "C30_missing_separator_refuted"
   ],
   "note": "Sound and complete for the grammar of values, unambiguous, terminating. C30_generic_form and C30_omitted_fields hold for all tuple types. C30_separators_partial needs all fields but the first to be optional; C30_missing_separator_refuted shows that it is false otherwise: a separator before a mandatory field may be left out."
  },
  {
   "property": "C31",
   "status": "proved",
   "theorems": [
    "C31_accepted_objects"
   ],
   "note": "For every accepted run from the text of the files: concrete type, exactly the components of the type, each with a value of its type, the frozen value, or null if optional and not frozen."
  },
  {
   "property": "C32",
   "status": "proved",
   "theorems": [
    "C32_accepted_run",
    "C32_parsed",
    "C32_parsed_values",
    "C32_resolved",
    "C32_resolvable",
    "C32_reported",
    "C32_typed"
   ],
   "note": "Reference resolution on the modelled object table and name tables: success exactly if all references denote, and an error otherwise. C32_accepted_run: in every accepted run."
  },
  {
   "property": "C33",
   "status": "proved",
   "theorems": [
    "C33_field_map"
   ],
   "note": "Hypotheses: as C19, members are declared types, component names of one type are distinct."
  },
  {
   "property": "C34",
   "status": "proved",
   "theorems": [
    "C34_run_files",
    "C34_run_primary",
    "C34_closure",
    "C34_rsl_files",
    "C34_trlc_files"
   ],
   "note": "Full: for every order in which the work set is emptied. C34_run_files and C34_run_primary: for every accepted run from the text of the files."
  },
  {
   "property": "C35",
   "status": "partial",
   "theorems": [
    "C35_run_order",
    "C35_order",
    "C35_one_file_per_package",
    "C35_cycle_refuted"
   ],
   "note": "Full when all preambles are readable; with an unreadable import list a cycle may be reported although there is none (refuted). C35_run_order: for every accepted run from the text of the files."
  },
  {
   "property": "C36",
   "status": "partial",
   "theorems": [
    "C36_run_refuted",
    "C36_no_table",
    "C36_table",
    "C36_result_partial",
    "C36_table_means_no_error_refuted"
   ],
   "note": "False as stated: C36_run_refuted, a symbol table is returned although an error was reported (unknown import, array size). What holds, for all files: C36_no_table, without a table an error was reported; C36_table, with a table every error is of one of three kinds (five tolerated mistakes, unreadable file, import of an undeclared package). C36_result_partial is about SourceMan.v with oracles for the file parsers."
  },
  {
   "property": "C37",
   "status": "partial",
   "theorems": [
    "C37_range",
    "C37_column_partial",
    "C37_column_refuted"
   ],
   "note": "Position range is exact for both kinds of literal; the column is right except on the first line of a triple-quoted string (refuted there)."
  },
  {
   "property": "C38",
   "status": "proved",
   "theorems": [
    "C38_references",
    "C38_unambiguous",
    "C38_located"
   ],
   "note": "Full: exact grammar of references, unambiguous, and located."
  },
  {
   "property": "C39",
   "status": "proved",
   "theorems": [
    "C39_arrays",
    "C39_unreported",
    "C39_run"
   ],
   "note": "Full: each message about an array type is given iff a component is declared with an array type with such bounds; also for the messages of whole runs."
  },
  {
   "property": "C40",
   "status": "proved",
   "theorems": [
    "C40_abstract_leaves",
    "C40_run"
   ],
   "note": "Full, for every run that ends with a result (see C46); also for the messages of whole runs."
  },
  {
   "property": "C41",
   "status": "proved",
   "theorems": [
    "C41_round_trip",
    "C41_accepts_phrases",
    "C41_accepts_all_phrases",
    "C41_unambiguous",
    "C41_left_association",
    "C41_mixing_rejected",
    "C41_sign",
    "C41_terminates",
    "C41_meaning"
   ],
   "note": "Full: sound and complete for the grammar, unambiguous, round trip, left association for chains of any length, mixed logical operators end the expression, termination on every input. C41_meaning: each form of the grammar gets the meaning stated in ExprMeaning.v."
  },
  {
   "property": "C42",
   "status": "proved",
   "theorems": [
    "C42_restart",
    "C42_progress",
    "C42_run_ends"
   ],
   "note": "Full: where parsing restarts after an error, every attempt consumes a token, and any run on any files ends (no bounded step of the model is ever exhausted). Hypothesis: a regular expression that compiles can be matched."
  },
  {
   "property": "C43",
   "status": "proved",
   "theorems": [
    "C43_excerpt",
    "C43_tokens"
   ],
   "note": "Full."
  },
  {
   "property": "C44",
   "status": "partial",
   "theorems": [
    "C44_can_be_null_partial",
    "C44_field_refuted",
    "C44_logic_refuted"
   ],
   "note": "Proved for expressions without optional field access, universal union access and nullable right sides; refuted for optional tuple/record fields and for and/or/implies."
  },
  {
   "property": "C45",
   "status": "partial",
   "theorems": [
    "C45_meaning_unique",
    "C45_evaluation_partial",
    "C45_object_partial",
    "C45_run",
    "C45_verdict"
   ],
   "note": "Uniqueness in full; agreement for regular expressions and distinct objects. The deviations are the refutations of C22, C25, C26, C28. C45_run and C45_verdict carry this over to whole runs: files with everything but the checks right are accepted exactly if the checks hold by the manual (regular checks; objects with a component that is not frozen)."
  },
  {
   "property": "C46",
   "status": "partial",
   "theorems": [
    "C46_assertion_refuted",
    "C46_enumeration_refuted",
    "C46_separators",
    "C46_exceptions",
    "C46_run",
    "C46_valid_run"
   ],
   "note": "Reported separators exact, also for whole runs. The linter can raise an AssertionError (two separators, the first ambiguous) or an AttributeError (enumeration after the ambiguous separator), both refuted; C46_exceptions says exactly when, and C46_valid_run that on valid files a run with the linter fails exactly then."
  },
  {
   "property": "C47",
   "status": "proved",
   "theorems": [
    "C47_unions",
    "C47_run"
   ],
   "note": "Full, for every run that ends with a result (see C46); also for the messages of whole runs."
  },
  {
   "property": "C48",
   "status": "proved",
   "theorems": [
    "C48_accepted_well_typed",
    "C48_well_typed_accepted",
    "C48_exactly",
    "C48_accepted_run"
   ],
   "note": "Full for the expression parser; `declared` says what earlier declarations leave behind. C48_exactly: the parser accepts exactly the token lists of the grammar that have a well-typed meaning, and returns that meaning. C48_accepted_run: the checks of all types of every accepted run."
  },
  {
   "property": "C49",
   "status": "partial",
   "theorems": [
    "C49_crashes_only",
    "C49_safe_words",
    "C49_exceptions_refuted"
   ],
   "note": "False (refuted): the expression parser raises exceptions. The phrases that can cause one are listed completely: membership in null, conversions of not exactly one value, an exponent or a regular expression with a quantifier; texts without five words are safe."
  },
  {
   "property": "C50",
   "status": "partial",
   "theorems": [
    "C50_sign_and_division",
    "C50_floor_of_negative_refuted",
    "C50_agreement"
   ],
   "note": "False (refuted): the parser negates the quotient. Exact value given, and when the two agree."
  },
  {
   "property": "C51",
   "status": "proved",
   "theorems": [
    "C51_accepted_run_is_sane"
   ],
   "note": "Full, for every accepted run from the text of the files. Hypothesis: a regular expression that compiles can be matched."
  },
  {
   "property": "C52",
   "status": "partial",
   "theorems": [
    "C52_run_refuted",
    "C52_crashes_only",
    "C52_no_exception"
   ],
   "note": "False (refuted): a file that imports itself and uses a qualified name, and a file that ends at an array bound, end with an internal error. C52_crashes_only lists all other causes: on complete files without the phrases of C49 and bad imports only the linter (C46) and checks with an index, a possibly null condition of a quantifier, or an incoherent union component can fail; C52_no_exception: no checks and no tuples, no exception."
  },
  {
   "property": "C53",
   "status": "proved",
   "theorems": [
    "C53_accepted_run"
   ],
   "note": "Full for every accepted run from the text of the files, against a specification of declarations and runs on token lists (DeclSyntax.v, RunSyntax.v, ExprMeaning.v). Reported mistakes that do not stop a run (lax) are part of the specification. Hypothesis: a regular expression that compiles can be matched."
  },
  {
   "property": "C54",
   "status": "proved",
   "theorems": [
    "C54_valid_run",
    "C54_no_errors",
    "C54_unique"
   ],
   "note": "Full for all files, against RunValid.v (strict reading of declarations, files, orders, references, checks), including that no error is reported except about unreadable files and unknown imports; with the linter, provided that no tuple type makes it stop (C46). Hypothesis: a regular expression that compiles can be matched."
  },
  {
   "property": "C55",
   "status": "partial",
   "theorems": [
    "C55_references",
    "C55_no_evaluation_error",
    "C55_each_check",
    "C55_order_refuted",
    "C55_tuple_error_refuted",
    "C55_vacuous_refuted",
    "C55_zero_bound_refuted",
    "C55_tuple",
    "C55_object"
   ],
   "note": "Full for legal objects whose checks follow no references, or whose fatal checks hold (C55_object covers all checks of an object including those of its tuple values; C55_each_check gives the exact order that verification relies on). Refuted without these conditions: fatal checks are assumed in another order than they are performed; failed error checks of tuples do not stop the checks of the record; unsatisfiable tuple checks make everything valid even if the component is null; an upper bound of 0 is relied on but never enforced. Checks must be well-typed, without element tests of another type and without conversions to the same type. Trusted: the semantics of SMT terms in VcgSem.v and that the solver is right when it answers unsat."
  },
  {
   "property": "C56",
   "status": "proved",
   "theorems": [
    "C56_always_true"
   ],
   "note": "Full under the conditions of C55. Reports are found by the position of the check; the check must not be declared in an ancestor as well."
  },
  {
   "property": "C57",
   "status": "partial",
   "theorems": [
    "C57_crash_refuted",
    "C57_tuple_crash_refuted",
    "C57_exact",
    "C57_tuple"
   ],
   "note": "Refuted: a range, one_of, division, remainder or index in a quantifier, or in a check of a tuple type that is used for a component, ends in an AssertionError. C57_exact and C57_tuple characterise this exactly for well-typed types: construction succeeds if and only if none of the listed constructs occurs there; an AssertionError is caused by one of them only, and so is the warning about unsupported constructs."
  },
  {
   "property": "C58",
   "status": "partial",
   "theorems": [
    "C58_unused_dropped",
    "C58_reports",
    "C58_no_reports",
    "C58_named_not_reported",
    "C58_reported_is_unused_refuted",
    "C58_unused_is_reported_refuted"
   ],
   "note": "Refuted both ways: a markup reference in an array or tuple is not counted (false report), a comment or string equal to the name is counted (no report). C58_unused_dropped is the positive part: any set of reported imports can be dropped together without a change in symbol table or messages, if no string of the file mentions the package in markup. The order of parsing is left as it is. C58_reports says exactly which imports are reported, and where."
  },
  {
   "property": "C59",
   "status": "partial",
   "theorems": [
    "C59_dictionary",
    "C59_failure",
    "C59_names",
    "C59_faithful",
    "C59_always_refuted"
   ],
   "note": "Refuted for the absence of exceptions: a decimal number of 2^1024 - 2^970 or more is accepted, and then to_python_dict ends in OverflowError; C59_failure shows that this is the only cause. Otherwise full. Rounding to doubles is not modelled: PyFloat stands for the double nearest to a rational number, so C59_faithful is about numbers before rounding."
  },
  {
   "property": "C60",
   "status": "partial",
   "theorems": [
    "C60_first",
    "C60_objects",
    "C60_again",
    "C60_repeatable_refuted",
    "C60_levels_refuted"
   ],
   "note": "Refuted in two points. The names of files and sections that were yielded are kept in the table, so a second iteration yields objects only (C60_repeatable_refuted; C60_again says exactly what it yields). Objects outside of sections have level 0 like objects in an outermost section, so different structures yield the same (C60_levels_refuted). The order of the first iteration and completeness are full. Sections are told apart by the place of their declaration, which stands for object identity."
  },
  {
   "property": "C61",
   "status": "partial",
   "theorems": [
    "C61_fractions",
    "C61_total",
    "C61_read_back",
    "C61_references",
    "C61_strings_refuted",
    "C61_separators_refuted",
    "C61_enums_refuted"
   ],
   "note": "Refuted without restrictions: quotes in strings are not escaped, so a string may be read back as another one (C61_strings_refuted); words that separate the fields of a tuple run into the next field (C61_separators_refuted); enumerations of other packages are shown without their package (C61_enums_refuted). C61_read_back is full for the values it calls readable, which excludes these, fractions without a finite decimal notation, strings with newlines, markup strings and references (names that no object has). The frame of the counterexample (create_counterexample) is not modelled."
  },
  {
   "property": "C62",
   "status": "partial",
   "theorems": [
    "C62_read_back",
    "C62_parsed",
    "C62_same_text_refuted",
    "C62_unreadable_refuted"
   ],
   "note": "Refuted without restrictions: operands are shown without brackets and strings without quotes, so accepted expressions with different values look the same (C62_same_text_refuted); 'not in', Boolean literals and decimals are shown as something that is no expression or another one (C62_unreadable_refuted). C62_read_back is full for the expressions it calls faithful: those that need no brackets and whose literals are integers, null and those of enumerations. Same means the same tree; locations and types are not part of it."
  }
 ]
}