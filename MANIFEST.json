{
 "claims": [
  {
   "property": "C01",
   "status": "proved",
   "theorems": [
    "array_is_list",
    "empty_array_is_list",
    "array_capacity_bound",
    "array_clear_refuted"
   ],
   "note": "For every supported history; array_clear on a never-used array dereferences NULL (array_clear_refuted)."
  },
  {
   "property": "C02",
   "status": "proved",
   "theorems": [
    "array_resize_fills",
    "array_resize_grows",
    "array_resize_refuted"
   ],
   "note": "Shrinking and growing from empty do what a user expects; growing a non-empty array never does, and what it does instead is characterised for every history (finding: newValues is indexed from the old length)."
  },
  {
   "property": "C03",
   "status": "proved",
   "theorems": [
    "dict_is_map"
   ],
   "note": ""
  },
  {
   "property": "C04",
   "status": "proved",
   "theorems": [
    "dict_enumeration"
   ],
   "note": ""
  },
  {
   "property": "C05",
   "status": "proved",
   "theorems": [
    "equality_symmetric",
    "equality_transitive",
    "equality_reflexive",
    "equality_defined",
    "equality_is_sameness",
    "equal_values_hash_alike",
    "equality_embedded_nul_refuted"
   ],
   "note": "Sameness is characterised for strings without embedded NUL; with one the code calls different strings equal (equality_embedded_nul_refuted)."
  },
  {
   "property": "C06",
   "status": "proved",
   "theorems": [
    "arena_blocks",
    "arena_pages_stay",
    "arena_align6_refuted"
   ],
   "note": "For power-of-two alignments; other even alignments round wrongly (arena_align6_refuted). The allocator trusts malloc for disjoint pages."
  },
  {
   "property": "C07",
   "status": "proved",
   "theorems": [
    "strings_interned",
    "string_indices_stable"
   ],
   "note": ""
  },
  {
   "property": "C08",
   "status": "proved",
   "theorems": [
    "line_of_offset",
    "line_and_column",
    "column_is_unique"
   ],
   "note": ""
  },
  {
   "property": "C09",
   "status": "proved",
   "theorems": [
    "error_message",
    "error_message_without_source",
    "error_message_lines",
    "error_message_beyond_source_refuted"
   ],
   "note": "A position beyond the source aborts instead (error_message_beyond_source_refuted)."
  },
  {
   "property": "C10",
   "status": "proved",
   "theorems": [
    "lexer_reads_in_bounds",
    "lexer_progress",
    "lexer_total",
    "lexer_unclosed_string_refuted",
    "lexer_error_stuck_refuted"
   ],
   "note": "Every run ends in end-of-file, a lexical error, or the endless loop on an unclosed string literal."
  },
  {
   "property": "C11",
   "status": "proved",
   "theorems": [
    "trivia_insertion",
    "trivia_after_slash_refuted"
   ],
   "note": "A // comment directly after a division sign needs a blank (trivia_after_slash_refuted)."
  },
  {
   "property": "C12",
   "status": "proved",
   "theorems": [
    "lex_round_trip"
   ],
   "note": "All operators, keywords, names, decimal and hex integers below 2^31, all chars and strings; decimal float literals of any length mean the nearest double rounded to float. Malformed lexemes such as 1.2x3 and hex floats are modelled but are not spellings the round trip covers."
  },
  {
   "property": "C13",
   "status": "proved",
   "theorems": [
    "lexer_lines",
    "lexer_lines_real",
    "lexer_lines_refuted"
   ],
   "note": ""
  },
  {
   "property": "C14",
   "status": "proved",
   "theorems": [
    "expressions_by_grammar",
    "expression_fuel",
    "expression_unambiguous",
    "two_operators",
    "parentheses_override"
   ],
   "note": "Both directions: the parser reads exactly the grammar of Grammar.v, for all expression forms, so the tokens determine the tree."
  },
  {
   "property": "C15",
   "status": "proved",
   "theorems": [
    "parser_answers"
   ],
   "note": "For every reachable state and source with room in the string table: statements with at most one node per token, or a compile error; the only way not to answer is an unclosed string literal (example parser_hangs). The C stack used by the recursive descent is not modelled."
  },
  {
   "property": "C16",
   "status": "proved",
   "theorems": [
    "operand_round_trip",
    "instruction_round_trip",
    "patching_is_local",
    "push_string_refuted",
    "push_string_wrong"
   ],
   "note": "Every operand size and power-of-two alignment, every instruction except PUSH_STRING, for which the property is false (refuted)."
  },
  {
   "property": "C17",
   "status": "proved",
   "theorems": [
    "expression_computes"
   ],
   "note": "Every expression of the typed tree the resolver produces, every operator, literal, call and constructor, inside any frame. Where the source meaning is undefined behaviour of the C code (overflow, division by zero, operands of the wrong kind), nothing is claimed."
  },
  {
   "property": "C18",
   "status": "proved",
   "theorems": [
    "statement_executes"
   ],
   "note": "Statements without nested function definitions (functions are entered by calls, C20). Break and continue are covered inside their loop; outside a loop they jump to the program's start (finding F9), which the source semantics calls undefined."
  },
  {
   "property": "C19",
   "status": "proved",
   "theorems": [
    "program_runs",
    "program_runs_collected",
    "compile_adds_its_statements",
    "source_runs"
   ],
   "note": "Every state reached by any sequence of host bindings, macros and successful compiles; less than 2^31 bytes of code. source_runs goes from the text (C39) through the typed trees to the run. Runs whose source meaning is undefined behaviour are not constrained."
  },
  {
   "property": "C20",
   "status": "proved",
   "theorems": [
    "call_returns_to_caller",
    "call_depth_limit",
    "call_runs_callee"
   ],
   "note": "call_returns_to_caller for arbitrary bytecode; call_runs_callee for compiled programs, caller's locals and temporaries included."
  },
  {
   "property": "C21",
   "status": "proved",
   "theorems": [
    "host_call_restores_partial",
    "host_call_computes"
   ],
   "note": "host_call_restores_partial for arbitrary bytecode (without the slots below); host_call_computes for every compiled program, all slots included."
  },
  {
   "property": "C22",
   "status": "proved",
   "theorems": [
    "collector_exact",
    "collector_total",
    "object_list_ok",
    "collector_cycle_refuted",
    "collection_transparent",
    "objects_held_are_alive",
    "two_callbacks_refuted"
   ],
   "note": "Each collection, and every history of a program whose foreign functions hold only objects the collector sees; on a reachable cycle marking never ends, and a foreign function calling back twice can leave the saved return value dangling (both refuted)."
  },
  {
   "property": "C23",
   "status": "proved",
   "theorems": [
    "collector_exact",
    "collector_total",
    "object_list_ok"
   ],
   "note": ""
  },
  {
   "property": "C24",
   "status": "proved",
   "theorems": [
    "collection_sound",
    "collection_transparent",
    "collection_transparent_call",
    "started_no_dangling",
    "cyclic_structure_refuted",
    "two_callbacks_refuted"
   ],
   "note": "Finalizers without effect on the host. Soundness holds for all code and foreign functions; the converse needs acyclic structures and disciplined foreign functions, without which it is refuted."
  },
  {
   "property": "C25",
   "status": "proved",
   "theorems": [
    "program_typed",
    "callback_typed",
    "call_result_typed",
    "new_thread_typed",
    "float_plus_one_refuted",
    "cast_refuted",
    "compound_string_refuted",
    "few_arguments_refuted",
    "index_function_refuted",
    "null_result_refuted"
   ],
   "note": "Type soundness up to null for the statically typed fragment, for every ready state and every host that keeps its declared types, under any collector schedule and inside callbacks; that every compiled statement is well typed is proved of the checker, not assumed. The refuted theorems are programs the checker accepts that leave the fragment or meet null."
  },
  {
   "property": "C26",
   "status": "proved",
   "theorems": [
    "names_resolved",
    "scopes_clean",
    "reachable_clean",
    "innermost_wins",
    "closed_locals_gone"
   ],
   "note": "For every reachable compiler state and every source that parses, the references in the statement trees are those of the scoping rules in Scope.v (innermost local, then parameter, then global or constant; blocks and loops open scopes, branches of a conditional do not); corollaries: a visible local is unique and wins, locals of closed scopes are never found."
  },
  {
   "property": "C27",
   "status": "proved",
   "theorems": [
    "pc_line_lookup",
    "pc_line_without_file",
    "pc_line_nowhere"
   ],
   "note": ""
  },
  {
   "property": "C28",
   "status": "proved",
   "theorems": [
    "failures_keep",
    "failed_compile",
    "calls_survive",
    "rerun_after_failure_refuted",
    "lines_after_failure_refuted",
    "compile_after_failure_refuted",
    "struct_after_failure_refuted"
   ],
   "note": "For every reachable state and every later sequence of host operations and compiles, failing or not, macros included. The state is not restored entirely: the final halt, the line table, the current function and mentioned-only structs can be left changed, shown by the refuted theorems (findings F8, F10, F62)."
  },
  {
   "property": "C29",
   "status": "proved",
   "theorems": [
    "compiled_stays",
    "behaviour_stays"
   ],
   "note": "Calls that return a value or diverge are compared; calls that abort are not, since foreign code may look at globals the first program did not have (F60)."
  },
  {
   "property": "C30",
   "status": "proved",
   "theorems": [
    "disassembler_agrees",
    "disassembler_decodes",
    "disassembler_shift_refuted"
   ],
   "note": "All instructions but the shifts (unknown to the disassembler, refuted) and PUSH_STRING (see C16)."
  },
  {
   "property": "C31",
   "status": "proved",
   "theorems": [
    "threads_isolated"
   ],
   "note": "Host memory only read by foreign functions."
  },
  {
   "property": "C32",
   "status": "proved",
   "theorems": [
    "run_is_iterated_cycle",
    "halted_stays_halted",
    "cycle_false_only_halted",
    "halt_instruction_halts",
    "execution_deterministic"
   ],
   "note": ""
  },
  {
   "property": "C33",
   "status": "proved",
   "theorems": [
    "integer_arithmetic",
    "integer_arithmetic_defined",
    "narrow_results_exact_in_range",
    "narrow_results_refuted",
    "literal_refuted"
   ],
   "note": ""
  },
  {
   "property": "C34",
   "status": "proved",
   "theorems": [
    "struct_set_one_cell",
    "struct_get_reads_cell",
    "struct_new_is_new"
   ],
   "note": ""
  },
  {
   "property": "C35",
   "status": "proved",
   "theorems": [
    "stack_heights",
    "operands_missing_refuted",
    "stack_overflow_refuted",
    "call_depth_limit"
   ],
   "note": "For every compiled program that keeps break/continue inside loops, initialises every field in new, and has its string constants among the first 256: one height per address, every instruction finds its operands above the frame base, and every thread and host call has this height at every instruction. Refuted: new with too few values reads operands never pushed; the 128-value stack itself is unchecked, so deep recursion overruns it before the depth limit aborts."
  },
  {
   "property": "C36",
   "status": "proved",
   "theorems": [
    "call_returns",
    "strcat_concatenates",
    "substr_is_slice",
    "substr_out_of_range_aborts",
    "substr_empty_range",
    "substr_converts_bounds",
    "substr_takes_three",
    "strlen_counts",
    "strlen_stops_at_nul",
    "stridx_indexes",
    "stridx_stops_at_nul",
    "stridx_out_of_range_aborts",
    "strchr_finds_first",
    "strchr_low_byte",
    "stridx_wraps_refuted"
   ],
   "note": "Strings shorter than 2^31. strlen and stridx see a string up to its first NUL. An index beyond 32 bits is truncated (refuted), an empty range outside the string is not rejected."
  },
  {
   "property": "C37",
   "status": "proved",
   "theorems": [
    "natives_finalized_once",
    "log_only_observes"
   ],
   "note": ""
  },
  {
   "property": "C38",
   "status": "proved",
   "theorems": [
    "int_to_str_is_decimal",
    "stoi_reads_decimal",
    "stoi_int_to_str",
    "stoi_reads_base",
    "stoi_64_bits_refuted",
    "printf_prints",
    "printf_too_few_arguments",
    "percent_percent_refuted",
    "percent_percent_needs_argument",
    "trailing_percent_undefined",
    "quoted_bool_is_silent"
   ],
   "note": "C's %f is a parameter. Formats the code mishandles (%%, unknown specifiers, trailing %, %q of a bool, an int for %f) are refuted or described by the specification and the other theorems. stoi keeps 32 bits of its result."
  },
  {
   "property": "C39",
   "status": "proved",
   "theorems": [
    "programs_by_grammar",
    "program_fuel",
    "program_unambiguous",
    "sentence_unambiguous",
    "dangling_else",
    "source_to_program"
   ],
   "note": "Both directions, for every source text and symbol table: the parser's answer is the grammar's program with the grammar's symbol table. Sources with an unclosed string literal have no end of file token and are not programs."
  },
  {
   "property": "C40",
   "status": "proved",
   "theorems": [
    "foreign_arguments"
   ],
   "note": "For the programs of C35 (break/continue inside loops, every field initialised in new, string constants among the first 256): elsewhere jumps and operands can leave the compiled order. Calls of Tiny functions with too few arguments are accepted (few_arguments_refuted, C25)."
  },
  {
   "property": "C41",
   "status": "proved",
   "theorems": [
    "function_lookup",
    "function_index_injective",
    "call_by_name",
    "global_lookup",
    "global_index_injective",
    "global_by_name"
   ],
   "note": "Indices stay valid over later compiles, failing or not: C28, C29."
  },
  {
   "property": "C42",
   "status": "proved",
   "theorems": [
    "assignable_by_rules",
    "expressions_typed_by_rules",
    "statements_typed_by_rules",
    "program_typed_by_rules",
    "one_type",
    "one_reading",
    "symbols_distinct",
    "compiled_is_well_typed",
    "nullable_to_itself_refuted"
   ],
   "note": "The typing rules are in Typing.v (an inductive definition that uses none of the checker's functions); acceptance by the type checker is equivalent to derivability, in both directions, for every symbol table; from the text via C39. nullable_to_itself_refuted is finding F11."
  },
  {
   "property": "C43",
   "status": "proved",
   "theorems": [
    "accepted_exactly",
    "typed_sources_answer"
   ],
   "note": "Both directions, for every reachable state and source without use statements and without the literal -2^31 (whose negation overflows, F28), with room in the string table for the literals and the file name; recursion depth as in C15. Grammar (GrammarStmt.v), typing rules (Typing.v) and the remaining conditions (Accept.v) use none of the compiler's functions."
  },
  {
   "property": "C44",
   "status": "proved",
   "theorems": [
    "containers_are_lists_and_maps",
    "sort_and_clear_undefined_refuted"
   ],
   "note": "All 22 array and dict functions, any number of containers, arbitrary program steps in between; resize of a non-empty array to a greater length is excluded (C02's array_resize_grows says what it does), as is sorting ints whose differences overflow (F74) and clearing an array that never had storage (F75)."
  },
  {
   "property": "C45",
   "status": "proved",
   "theorems": [
    "containers_keep_objects",
    "primitive_array_dangles_refuted",
    "resize_resurrects_refuted"
   ],
   "note": "Every program, collection policy and set of other foreign functions that respect the collector; the excluded behaviours (objects read from primitive arrays F65, growing resize F73, cycles F51) are shown to be wrong by the refuted theorems."
  },
  {
   "property": "C46",
   "status": "proved",
   "theorems": [
    "function_binding",
    "signature_unambiguous",
    "bound_function",
    "bound_call",
    "constant_binding",
    "bound_constant",
    "registered_type",
    "macro_binding",
    "use_runs_macro"
   ],
   "note": "Both directions for functions and constants (which texts and states are accepted, what is then bound). Texts of constants can be loaded if at most 256 texts were registered (the operand of the instruction is one byte). Later states are those reached by host calls and successful compiles."
  },
  {
   "property": "C47",
   "status": "proved",
   "theorems": [
    "compiler_answers",
    "self_declaration_refuted",
    "pending_structure_refuted",
    "macro_reads_untyped_refuted"
   ],
   "note": "Every reachable state, every source without use and without the literal -2^31 (F28), with room in the string table; recursion depth as in C15; the excluded cases are shown to be undefined behaviour or a failed assertion by the refuted theorems (F46, F71, F78)."
  },
  {
   "property": "C48",
   "status": "proved",
   "theorems": [
    "array_refused",
    "array_already",
    "array_made",
    "array_functions",
    "row_call_types",
    "array_indexing",
    "dict_made",
    "dict_functions",
    "dict_types",
    "array_of_registered_name_refuted",
    "typed_array_holds_anything_refuted"
   ],
   "note": "The array macro (use array) and Tiny_BindStandardDict: exactly when they succeed, and what functions, with which types, programs see from then on, whatever is bound or compiled later. Names whose signatures fit the library's 512-byte buffer. What the functions do is C44. The refuted theorems are findings F79 and F80."
  },
  {
   "property": "C49",
   "status": "proved",
   "theorems": [
    "library_binding",
    "library_promises",
    "string_indexing"
   ],
   "note": "Tiny_BindStandardLib, Tiny_BindStandardIO and Tiny_BindI64: binding works exactly when none of the names is taken, and then all of it stays as promised. The functions' bodies are C36, C38 (strings, numbers, printf) where modelled; files, time and random numbers are not."
  },
  {
   "property": "C50",
   "status": "proved",
   "theorems": [
    "i64_from_int",
    "i64_sums",
    "i64_products",
    "i64_is_printed",
    "i64_equality",
    "i64_null_is_zero_refuted",
    "i64_sum_that_fits_refuted"
   ],
   "note": "int_to_i64, i64_add_many, i64_mul_many, i64_to_string; signed overflow on the way from left to right is undefined behaviour even when the total fits."
  },
  {
   "property": "C51",
   "status": "proved",
   "theorems": [
    "call_by_number",
    "call_of_no_function_aborts"
   ],
   "note": "get_function_index and call_function in the run of the typed program, which C19 carries to the compiled code; names without NUL, function numbers below 2^31. The delegate macro, which generates source text around these two functions, is not modelled."
  },
  {
   "property": "C52",
   "status": "proved",
   "theorems": [
    "accepted_with_macros",
    "typed_uses_answer",
    "array_macro_binds"
   ],
   "note": "Macros that only bind names of the host's (as the array macro does, array_macro_binds); macros that compile further source (delegate, json) are outside the hypothesis. Literals other than -2^31 (finding F28), room in the string table; enough fuel for the parser model."
  },
  {
   "property": "C53",
   "status": "proved",
   "theorems": [
    "compiler_answers_with_macros",
    "new_of_host_type_refuted"
   ],
   "note": "C47 for sources with use statements: macros that only make host bindings (as the array macro, array_macro_binds). new_of_host_type_refuted: without the hypothesis about new the compiler does not answer (the model says undefined behaviour where the assertion of tiny.c:2875 stops the process)."
  },
  {
   "property": "C54",
   "status": "proved",
   "theorems": [
    "found_stays",
    "host_names_found",
    "source_names_found"
   ],
   "note": "Lookup by name for the host (Tiny_FindConstSymbol, Tiny_FindTypeSymbol, Tiny_GetStringFromConstIndex, and the functions C41 looks up): across successful and failing moves as in C28."
  },
  {
   "property": "C55",
   "status": "proved",
   "theorems": [
    "write_file_writes",
    "read_file_reads",
    "fopen_opens",
    "written_file",
    "read_back",
    "fseek_moves",
    "fsize_counts",
    "fwrite_in_place",
    "open_twice",
    "closed_file",
    "other_calls_elsewhere",
    "addresses_stay_new",
    "fsize_keeps_position_refuted",
    "write_file_keeps_all_refuted"
   ],
   "note": "The C streams are part of the model (Files.v: files are byte lists, operations on open files do not fail; modes with + and opening a file that is being written count as undefined). A short fread is undefined in the model because the string handed over is not terminated (F88)."
  },
  {
   "property": "C56",
   "status": "proved",
   "theorems": [
    "missing_file",
    "file_accepted_exactly",
    "file_answers",
    "saved_source_compiles"
   ],
   "note": "With the disk of C55; a failed compile after opening is C28. Source without use statements as in C43 (with them: C52 applies to the same text)."
  },
  {
   "property": "C57",
   "status": "proved",
   "theorems": [
    "every_text_means",
    "means_one_number",
    "stoi_reads",
    "stoi_default_base",
    "stoi_no_such_base",
    "stoi_saturates_refuted"
   ],
   "note": "C's strtol is modelled in the C locale. The clamp to 64 bits is followed by a cut to 32, so large numbers read as -1 (F92, refuted)."
  }
 ]
}