{
 "claims": [
  {
   "property": "C01",
   "status": "proved",
   "theorems": [
    "C01_lexing_is_lossless"
   ],
   "note": "Total for every byte string and every Unicode table."
  },
  {
   "property": "C02",
   "status": "proved",
   "theorems": [
    "C02_one_terminal_token"
   ],
   "note": ""
  },
  {
   "property": "C03",
   "status": "proved",
   "theorems": [
    "C03_token_classification",
    "C03_characters",
    "C03_characters_of_utf8"
   ],
   "note": "Lexer output equals the unique token stream of an independent lexical grammar; characters are UTF-8 code points."
  },
  {
   "property": "C04",
   "status": "partial",
   "theorems": [
    "C04_token_locations_partial",
    "C04_uniform_columns_refuted",
    "C04_error_locations_refuted"
   ],
   "note": "Full statement is false: columns count from 0 on the first line and from 1 on later ones (refuted). The exact location of every token is proved."
  },
  {
   "property": "C05",
   "status": "proved",
   "theorems": [
    "C05_layout_is_irrelevant"
   ],
   "note": ""
  },
  {
   "property": "C06",
   "status": "proved",
   "theorems": [
    "C06_parsing_is_total"
   ],
   "note": "Every non-empty token sequence; fuel is linear in its length. None would be running out of fuel, an index outside the sequence or a missing function."
  },
  {
   "property": "C07",
   "status": "partial",
   "theorems": [
    "C07_operators_bind_as_written_partial",
    "C07_documented_precedence_refuted"
   ],
   "note": "Round trip for every expression tree with brackets where precedence and associativity need them, with unary minus at the precedence of the binary one. Refuted for the documented precedence of negation: -a * b parses as -(a * b). Missing: nothing else."
  },
  {
   "property": "C08",
   "status": "partial",
   "theorems": [
    "C08_programs_parse_back_partial",
    "C08_programs_with_brackets_partial",
    "C08_any_program_refuted"
   ],
   "note": "Round trip for every program tree in which statements, fields and declarations can be told apart (fits_program). Refuted without this: nothing separates statements, and expressions that begin with ~ or type are no statements or returned values."
  },
  {
   "property": "C09",
   "status": "partial",
   "theorems": [
    "C09_no_error_means_all_read_partial",
    "C09_any_input_refuted"
   ],
   "note": "For every token sequence whose last token before EOF is not one that an expression must follow: no error implies the whole input is the text of a program whose tree is returned. Refuted without this: when tokens run out there, next panics, onUnexpectedEof recovers, and the declaration is dropped without an error (fn f() = <EOF>)."
  },
  {
   "property": "C10",
   "status": "proved",
   "theorems": [
    "C10_lexical_scoping",
    "C10_redeclaration_changes_nothing",
    "C10_leaving_restores"
   ],
   "note": "All histories over Define, Resolve, ResolveAll, Owns, Child, Parent."
  },
  {
   "property": "C11",
   "status": "proved",
   "theorems": [
    "C11_matching_is_an_equivalence"
   ],
   "note": ""
  },
  {
   "property": "C12",
   "status": "proved",
   "theorems": [
    "C12_inference_is_sound"
   ],
   "note": "Also for explicit type arguments and for arguments that are names with overloads."
  },
  {
   "property": "C13",
   "status": "partial",
   "theorems": [
    "C13_no_unbound_parameter_partial",
    "C13_refuted"
   ],
   "note": "Full statement is false: function types in the result type are not searched (refuted by fn f<T>() fn(T) T). Proved for result types with no function type inside."
  },
  {
   "property": "C14",
   "status": "partial",
   "theorems": [
    "C14_first_applicable_overload_partial",
    "C14_refuted",
    "C14_argument_refuted"
   ],
   "note": "Full statement is false when an argument is the name of several functions: a rejected candidate leaves the argument settled, a rejected overload of the argument leaves its bindings (both refuted). Proved for all other arguments."
  },
  {
   "property": "C15",
   "status": "partial",
   "theorems": [
    "C15_substitution_ends_partial",
    "C15_instantiation_ends_partial",
    "C15_substitution_result",
    "C15_substitution_fields",
    "C15_substitution_members",
    "C15_refuted",
    "C15_generic_refuted"
   ],
   "note": "Full statement is false: substitution never ends on a struct that refers to itself (refuted for a plain and for a generic one). Proved: it ends exactly when the type does not refer to itself."
  },
  {
   "property": "C16",
   "status": "partial",
   "theorems": [
    "C16_labels_differ_partial",
    "C16_labels_exactly_partial",
    "C16_refuted",
    "C16_array_refuted"
   ],
   "note": "Full statement is false: type parameters are all written T, []int is written like array<int> (refuted). Proved for concrete parameter types, and the exact collisions for all types, for functions that are not external and not main."
  },
  {
   "property": "C17",
   "status": "proved",
   "theorems": [
    "C17_checked_bodies_return",
    "C17_checked_runs_return"
   ],
   "note": "First: every way through the source body. Second: every run of the lowered body, whose only other end is a match that met a value of none of its cases, which C18 and C19 exclude for values built by constructors."
  },
  {
   "property": "C18",
   "status": "proved",
   "theorems": [
    "C18_accepted_matches_are_exhaustive",
    "C18_one_case_applies"
   ],
   "note": "Over declaration of the enum's constructors (symbol table history) and the checks of the match statement."
  },
  {
   "property": "C19",
   "status": "proved",
   "theorems": [
    "C19_match_runs_its_case",
    "C19_constructors_build_members"
   ],
   "note": "Equality of results both ways, for every state; results include returns, failures and traps."
  },
  {
   "property": "C20",
   "status": "partial",
   "theorems": [
    "C20_range_up_partial",
    "C20_range_up_calculated_partial",
    "C20_range_down_partial",
    "C20_ranges_refuted",
    "C20_end_reevaluated_refuted"
   ],
   "note": "Full statement is false: decreasing ranges to other than a literal 0 run no round, -3 .. 0 runs none, and the end is evaluated before each round (refuted). Proved for ascending ranges whose end keeps its value and for a .. 0 with a >= 0."
  },
  {
   "property": "C21",
   "status": "partial",
   "theorems": [
    "C21_array_literal_partial",
    "C21_array_expression_partial",
    "C21_array_variable_partial",
    "C21_expression_once_refuted"
   ],
   "note": "Full statement is false: an array expression that is not a literal is evaluated twice a round (refuted). Proved for literals, and for expressions that keep giving the same array without effects."
  },
  {
   "property": "C22",
   "status": "partial",
   "theorems": [
    "C22_folding_keeps_meaning",
    "C22_literals_kept_partial",
    "C22_overflow_refuted",
    "C22_leading_zero_refuted"
   ],
   "note": "Full statement is false: literals from 2^62 to 2^63-1 are accepted and wrap, a leading zero means base 8 (refuted). Proved for the other literals and for folding of every tree."
  },
  {
   "property": "C24",
   "status": "partial",
   "theorems": [
    "C24_integer_arithmetic_partial",
    "C24_shift_count_refuted"
   ],
   "note": "Full statement is false for shift counts outside 0..63, which the processor takes modulo 64 (refuted). Everything else proved for all operands, nestings and states."
  },
  {
   "property": "C25",
   "status": "proved",
   "theorems": [
    "C25_comparisons_and_booleans",
    "C25_short_circuit_refuted"
   ],
   "note": "Both operands of and, or are always evaluated: that the right one is skipped when the left one decides is refuted (docs/FIXME.txt:3 lists this)."
  },
  {
   "property": "C26",
   "status": "proved",
   "theorems": [
    "C26_expression_code_keeps_frame",
    "C26_evaluation_keeps_frame"
   ],
   "note": "First theorem: every expression and every machine state with stack enough not to wrap around address 0, calls being one step that keeps stack, frame pointer and the caller's stack. Second: through called functions, for expressions meeting [safe]."
  },
  {
   "property": "C27",
   "status": "partial",
   "theorems": [
    "C27_arguments_arrive_partial",
    "C27_refuted"
   ],
   "note": "Full statement is false: a division (shift) in an argument after the second (third) destroys rdx (rcx) (refuted by a machine run of third(1, 2, 3, 8 / 2)). Proved for all other calls and nestings of functions of the program."
  },
  {
   "property": "C28",
   "status": "proved",
   "theorems": [
    "C28_calls_aligned"
   ],
   "note": "Along every execution of every function; what is called is assumed to return with the stack pointer it was called with, which the exits are proved to provide. The call in the bounds-check trampoline is in C29_index_outside."
  },
  {
   "property": "C29",
   "status": "proved",
   "theorems": [
    "C29_index_inside",
    "C29_index_address",
    "C29_index_outside"
   ],
   "note": ""
  },
  {
   "property": "C30",
   "status": "proved",
   "theorems": [
    "C30_variables_do_not_alias"
   ],
   "note": ""
  },
  {
   "property": "C31",
   "status": "proved",
   "theorems": [
    "C31_control_flow_preserved",
    "C31_functions_as_interpreted"
   ],
   "note": "Functions over ints and bools against a relational semantics; functions with calls, memory and arrays against an interpreter."
  },
  {
   "property": "C23",
   "status": "partial",
   "theorems": [
    "C23_closures_see_captured_values_partial",
    "C23_free_variables_found_partial",
    "C23_later_calls_partial",
    "C23_array_index_refuted",
    "C23_same_names_refuted"
   ],
   "note": "Full statement is false: a variable used only in the index of an array variable is not captured, and captured names that are equal (a variable and a field) become one field (both refuted). Proved otherwise for every function body, every meaning of the operators, calls and memory, and every order of the captured variables. Function literals inside the body are taken to be moved out already, as the compiler does. Not covered: code of the environment's constructor and of calls of closures."
  },
  {
   "property": "C32",
   "status": "partial",
   "theorems": [
    "C32_generated_programs_partial",
    "C32_careful_runs_partial",
    "C32_joins",
    "C32_any_sequence_refuted"
   ],
   "note": "Every generated program whose calls fit the functions called (sound_program, a syntactic condition), every machine state at the start of a function, and every run in which functions return to their calls: the optimised program follows the whole run with the same memory, flags and registers that matter. False for arbitrary sequences (refuted). Missing: runs that overwrite return addresses on the stack, and programs with ill typed calls."
  },
  {
   "property": "C33",
   "status": "partial",
   "theorems": [
    "C33_labels_unique_partial",
    "C33_refuted"
   ],
   "note": "Full statement is false: a function asm_entrypoint() gets the label of the entry routine (refuted). Proved when function labels differ (see C16) and none is that label."
  },
  {
   "property": "C35",
   "status": "proved",
   "theorems": [
    "C35_constructor",
    "C35_field_read",
    "C35_field_write"
   ],
   "note": "The allocator is a contract: it returns memory the program may use."
  },
  {
   "property": "C34",
   "status": "partial",
   "theorems": [
    "C34_literals_partial",
    "C34_source_literals",
    "C34_written_exactly",
    "C34_only_quoted",
    "C34_literal_address",
    "C34_newline_refuted",
    "C34_utf8_refuted"
   ],
   "note": "Full statement is false: a line end in a literal makes the compiler panic; for bytes that are not UTF-8 the stored length counts their replacement (both refuted). Proved for every program and every literal of UTF-8 source text that is written; written exactly when no literal has a line end. The assembler's treatment of .ascii is an assumption (StrModel.assemble)."
  },
  {
   "property": "C36",
   "status": "partial",
   "theorems": [
    "C36_maps_partial",
    "C36_nested_blocks_refuted",
    "C36_loop_variable_refuted",
    "C36_saved_values_refuted"
   ],
   "note": "Full statement is false: scopes closed are not dropped, so after nested blocks an unassigned variable's slot stays listed; array loop variables are never listed; values saved on the stack are in no map (all refuted). Proved for every program, function, way through the body and call when no object is declared before a block within a block and variables are declared before they are assigned."
  },
  {
   "property": "C37",
   "status": "proved",
   "theorems": [
    "C37_collection",
    "C37_allocation"
   ],
   "note": "Byte memory, linked block list, stack frames with GC maps, every heap graph. What free writes is arbitrary inside the block freed. Preconditions: blocks apart, everything reachable that looks like a pointer is an object or a constant."
  },
  {
   "property": "C38",
   "status": "partial",
   "theorems": [
    "C38_headers_partial",
    "C38_sequences_partial",
    "C38_read_only_unchanged",
    "C38_refuted"
   ],
   "note": "Full statement is false: the header has 16 bits for the type id but ids from 2^15 on are read back negative (refuted). Everything proved for ids below 2^15. That read-only objects are not freed is part of C37_collection (only blocks of the list are freed, nothing outside changes)."
  },
  {
   "property": "C39",
   "status": "proved",
   "theorems": [
    "C39_pointers",
    "C39_exactly"
   ],
   "note": ""
  },
  {
   "property": "C40",
   "status": "proved",
   "theorems": [
    "C40_entries_describe_types",
    "C40_constructors",
    "C40_table_written",
    "C40_table_refuted"
   ],
   "note": "For every program for which a table is written. The compiler panics instead of writing one when an enum has a type parameter of its own name (exact characterisation proved)."
  },
  {
   "property": "C41",
   "status": "proved",
   "theorems": [
    "C41_hash_map_is_a_dictionary",
    "C41_negative_hash_refuted"
   ],
   "note": "All histories shorter than 2^59 operations (so that table sizes are ints). The non-negativity condition on hashes is shown necessary."
  },
  {
   "property": "C42",
   "status": "proved",
   "theorems": [
    "C42_list_functions"
   ],
   "note": "Argument functions thread a state, so call order and count are covered."
  },
  {
   "property": "C43",
   "status": "partial",
   "theorems": [
    "C43_strings_partial",
    "C43_empty_substring_refuted"
   ],
   "note": "Full statement is false for an empty substring searched from a position > 0 (refuted); everything else proved."
  },
  {
   "property": "C44",
   "status": "partial",
   "theorems": [
    "C44_parts_of_buffers_partial",
    "C44_buffers_concatenate_partial",
    "C44_capacity_zero_refuted"
   ],
   "note": "Full statement is false for capacity 0: the first append never returns (refuted). Proved for every positive capacity, string and byte appends and resets in any order; parts of the contents for positions and lengths whose sum is an int."
  },
  {
   "property": "C45",
   "status": "partial",
   "theorems": [
    "C45_byte_arrays_partial",
    "C45_negative_index_refuted"
   ],
   "note": "Full statement is false for negative indexes (refuted). Proved for all others."
  },
  {
   "property": "C46",
   "status": "proved",
   "theorems": [
    "C46_fnv1a"
   ],
   "note": ""
  },
  {
   "property": "C47",
   "status": "proved",
   "theorems": [
    "C47_to_string_is_decimal"
   ],
   "note": ""
  },
  {
   "property": "C48",
   "status": "proved",
   "theorems": [
    "C48_mod_and_binary"
   ],
   "note": ""
  },
  {
   "property": "C49",
   "status": "proved",
   "theorems": [
    "C49_options_and_results"
   ],
   "note": ""
  },
  {
   "property": "C50",
   "status": "proved",
   "theorems": [
    "C50_arguments_and_environment"
   ],
   "note": "The pointers in argv and envp are read with load64 of the model in the statement too, so an error in load64 itself is outside this theorem."
  },
  {
   "property": "C51",
   "status": "partial",
   "theorems": [
    "C51_checked_programs_follow_the_rules_partial",
    "C51_accepted_programs_do_not_go_wrong_partial",
    "C51_lost_errors_refuted",
    "C51_open_function_values_refuted",
    "C51_field_of_function_refuted",
    "C51_built_in_names_refuted"
   ],
   "note": "Proved for programs with neither errors nor uses of the constructs whose types the checker does not settle (type oddity in CheckModel.v). Refuted for accepted programs in general: errors lost in ternaries and array literals, function values with open type parameters, fields of a function's result, names printf/debug."
  },
  {
   "property": "C52",
   "status": "proved",
   "theorems": [
    "C52_checking_ends",
    "C52_no_type_is_an_error"
   ],
   "note": ""
  },
  {
   "property": "C53",
   "status": "partial",
   "theorems": [
    "C53_declarations_stand_partial",
    "C53_nothing_is_declared_twice",
    "C53_refusals_have_errors",
    "C53_good_declarations_are_accepted",
    "C53_functions_are_told_apart",
    "C53_declarations_suffice_partial",
    "C53_written_programs_do_not_go_wrong_partial",
    "C53_enum_named_like_its_parameter_refuted",
    "C53_declarations_never_crash_refuted",
    "C53_same_function_twice_refuted",
    "C53_different_functions_refuted",
    "C53_order_of_declarations_refuted"
   ],
   "note": "Proved for programs in which no enum has its own name as a type parameter; that the checker may rely on the declarations also needs arguments for generic types in fields and members. Refuted: a struct constructor with the name of a type crashes the compiler, acceptance depends on the order, equal functions are accepted twice and different ones refused."
  },
  {
   "property": "C54",
   "status": "partial",
   "theorems": [
    "C54_programs_by_the_rules_are_accepted_partial",
    "C54_types_are_those_of_the_rules_partial",
    "C54_programs_by_the_rules_do_not_go_wrong_partial",
    "C54_bodies_by_the_rules_are_accepted_partial",
    "C54_good_programs_are_accepted_partial",
    "C54_good_programs_do_not_go_wrong_partial",
    "C54_literal_called_refuted"
   ],
   "note": "The rules leave out names with several overloads and names of generic functions as values and arguments, function literals with type parameters, calls of unsafe and deref, comparison of other things than integers. Refuted for function literals with an expression body that are called where they are written: they are refused."
  },
  {
   "property": "C55",
   "status": "partial",
   "theorems": [
    "C55_errors_in_order",
    "C55_errors_of_the_start",
    "C55_no_error_in_the_start_of_a_program_partial",
    "C55_messages_are_right_partial",
    "C55_errors_in_each_argument",
    "C55_token_of_the_error_refuted"
   ],
   "note": "No error inside the beginning of a program: proved for the programs that parse back (C08). Refuted for missing expressions: the message names the token after the wrong one."
  },
  {
   "property": "C56",
   "status": "proved",
   "theorems": [
    "C56_walks_reach_everything",
    "C56_walks_are_in_order",
    "C56_walks_leave_nodes",
    "C56_literals_are_folded",
    "C56_walks_after_folding"
   ],
   "note": "For walks whose function leaves the tree as it is, and for the folding of literals, which changes it. Type parameters of structs and enums do not count as nodes: the walk leaves them out. The constructors that are added to the tree between parsing and folding have no literals and are not in the trees here."
  },
  {
   "property": "C57",
   "status": "proved",
   "theorems": [
    "C57_code_for_functions",
    "C57_code_for_programs",
    "C57_no_code_no_program",
    "C57_typed_functions_have_code_refuted"
   ],
   "note": "Exact for functions and lists of functions. Panics of the type table and of string literals are those of C40 and C34. Refuted that every function whose types are right has code: comparisons of strings, seven parameters and called results after a pointer argument make the compiler panic."
  },
  {
   "property": "C58",
   "status": "partial",
   "theorems": [
    "C58_files_are_read",
    "C58_wrong_words",
    "C58_words",
    "C58_words_between_gaps",
    "C58_layout_does_not_matter",
    "C58_programs_are_read_partial",
    "C58_programs_can_be_written_partial",
    "C58_only_programs_are_read_partial",
    "C58_unfinished_file_refuted"
   ],
   "note": "From bytes to trees, joining C01-C09. Reading, wrong words and layout: proved for all files. Programs: those in which nothing runs into what follows it (as C08). Converse: files that do not end where an expression has to follow (refuted for these, as C09)."
  },
  {
   "property": "C59",
   "status": "partial",
   "theorems": [
    "C59_nodes_mean_the_program",
    "C59_files_mean_programs_partial",
    "C59_only_programs_have_meaning_partial",
    "C59_good_files_are_accepted_partial",
    "C59_accepted_files_do_not_go_wrong_partial",
    "C59_types_are_put_in",
    "C59_names_keep_their_bytes"
   ],
   "note": "From bytes to accepted programs, joining C51, C53, C54, C56, C58. Trees of programs: proved, both directions. From files: under the conditions of C58 (nothing runs into what follows it; no file ends where an expression has to follow) and of C53, C54, except that on names, which is proved of every file. Function literals with type parameters are not modelled."
  },
  {
   "property": "C60",
   "status": "proved",
   "theorems": [
    "C60_every_literal_is_moved",
    "C60_one_function_for_each_literal",
    "C60_literals_are_the_inner_functions",
    "C60_nothing_left_to_do"
   ],
   "note": "The whole pass over the program, for all trees in which calls have a callee, all orders of captured variables and all made symbols that are global. Functions named invokeDynamic are left as they are by the compiler (main.go:121); the runtime library has the only one, without literals. What the moved function does is C23; types and structs made for closures are not part of this claim."
  },
  {
   "property": "C61",
   "status": "partial",
   "theorems": [
    "C61_closures_are_called_partial",
    "C61_functions_are_called_partial",
    "C61_closures_are_told_by_their_header",
    "C61_headers_tell_them_apart",
    "C61_six_arguments_refuted"
   ],
   "note": "At the level of the machine, from the entry of invokeDynamic, for values called with up to five arguments (those not given are whatever the registers hold as long as they are words) and functions that return in rax. Refuted for six arguments: the calling function has no code, though functions may have six parameters. That the word before a function holds its header is a hypothesis (the assembler directive that puts it there is not modelled); the headers of C38 are shown to be told apart. Results returned by functions outside the program are left out."
  },
  {
   "property": "C62",
   "status": "proved",
   "theorems": [
    "C62_trees_are_copied",
    "C62_copies_are_apart",
    "C62_only_trees_are_copied",
    "C62_tidy_trees_are_copied_exactly",
    "C62_copies_are_equal_refuted"
   ],
   "note": "Memory of nodes with pointers. Refuted that copies are equal in every field: attributes are not copied. Function literals and the variables of loops, the only nodes that are copied, are made without attributes. Tokens, symbols, types and scopes are shared by original and copy, as they are meant to be."
  },
  {
   "property": "C63",
   "status": "partial",
   "theorems": [
    "C63_accepted_assignments_have_places_partial",
    "C63_accepted_assignments_have_places_refuted",
    "C63_what_may_be_assigned_to",
    "C63_variables_are_assigned",
    "C63_elements_are_assigned",
    "C63_calls_are_not_overwritten_refuted",
    "C35_field_write"
   ],
   "note": "Proved for functions checked without errors and without notes; refuted in general: calls that give structs or arrays, and names of functions, may be assigned to; for every program, accepted or not, what an assignment may have on the left is listed. An assignment to a call overwrites the first word of the object returned (theorem about the machine); one to the name of a function is not followed to the machine. Variables, elements and fields (C35) of generated code: one place changes and nothing else."
  }
 ]
}