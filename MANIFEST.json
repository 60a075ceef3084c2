{
 "claims": [
  {
   "property": "C01",
   "status": "proved",
   "theorems": [
    "C01_number_value",
    "C01_number_exact"
   ],
   "note": ""
  },
  {
   "property": "C02",
   "status": "proved",
   "theorems": [
    "C02_character_iff",
    "C02_character_rejects",
    "C02_character_too_long"
   ],
   "note": ""
  },
  {
   "property": "C03",
   "status": "proved",
   "theorems": [
    "C03_escape_iff",
    "C03_bad_escape_rejected"
   ],
   "note": ""
  },
  {
   "property": "C04",
   "status": "partial",
   "theorems": [
    "C04_string_object",
    "C04_string_closed",
    "C04_string_bytes_partial",
    "C04_string_bytes_refuted"
   ],
   "note": "The byte-for-byte claim holds for 7-bit sources only; a source byte >= 0x80 is stored as its two-byte UTF-8 encoding, so the unrestricted claim is refuted by a witness."
  },
  {
   "property": "C05",
   "status": "proved",
   "theorems": [
    "C05_layout_skipped",
    "C05_only_layout_skipped",
    "C05_unclosed_comment"
   ],
   "note": ""
  },
  {
   "property": "C06",
   "status": "proved",
   "theorems": [
    "C06_identifier_maximal",
    "C06_identifier_inv"
   ],
   "note": ""
  },
  {
   "property": "C07",
   "status": "proved",
   "theorems": [
    "C07_pushback_stream",
    "C07_lexer_model",
    "C07_data_with_eof_refuted"
   ],
   "note": "A reader that returns its last byte together with io.EOF loses that byte (refuted); for all other readers the stream view is exact."
  },
  {
   "property": "C08",
   "status": "proved",
   "theorems": [
    "C08_terminates",
    "C08_bound_irrelevant",
    "C08_all_read"
   ],
   "note": ""
  },
  {
   "property": "C09",
   "status": "proved",
   "theorems": [
    "C09_read_failure"
   ],
   "note": ""
  },
  {
   "property": "C38",
   "status": "proved",
   "theorems": [
    "C38_write",
    "C38_write_unique"
   ],
   "note": ""
  },
  {
   "property": "C39",
   "status": "proved",
   "theorems": [
    "C39_write_constant"
   ],
   "note": ""
  },
  {
   "property": "C40",
   "status": "proved",
   "theorems": [
    "C40_printd",
    "C40_numeral_unique"
   ],
   "note": ""
  },
  {
   "property": "C41",
   "status": "proved",
   "theorems": [
    "C41_printo"
   ],
   "note": ""
  },
  {
   "property": "C42",
   "status": "partial",
   "theorems": [
    "C42_printf_partial",
    "C42_printf_minimum_refuted",
    "C42_printf_signed_char_refuted"
   ],
   "note": "Proved for every format and argument list, except that %d and %o arguments are not the most negative word and, where plain char is signed (x86_64, macOS), printed characters are 7-bit. Both exclusions are necessary: witnesses are given."
  },
  {
   "property": "C43",
   "status": "partial",
   "theorems": [
    "C43_lchar_char_partial",
    "C43_char_refuted"
   ],
   "note": "All of it, except that where plain char is signed char() returns a byte above 127 as a negative number (same low byte); refuted by a witness."
  },
  {
   "property": "C44",
   "status": "proved",
   "theorems": [
    "C44_read"
   ],
   "note": ""
  },
  {
   "property": "C45",
   "status": "proved",
   "theorems": [
    "C45_no_overflow"
   ],
   "note": ""
  },
  {
   "property": "C47",
   "status": "partial",
   "theorems": [
    "C47_output_names_partial",
    "C47_output_names_refuted"
   ],
   "note": "For every input path and mode the documented name is used and the file exists after success, except that an executable whose name is also the name of one of the temporaries of the run is deleted again (refuted by a witness)."
  },
  {
   "property": "C48",
   "status": "proved",
   "theorems": [
    "C48_o_many_rejected"
   ],
   "note": ""
  },
  {
   "property": "C49",
   "status": "proved",
   "theorems": [
    "C49_extension_rejected"
   ],
   "note": ""
  },
  {
   "property": "C50",
   "status": "partial",
   "theorems": [
    "C50_temps_removed_partial",
    "C50_only_own_removed",
    "C50_temps_removed_refuted"
   ],
   "note": "Every temporary is gone in every outcome, provided writing the IR text to a file that was created does not fail; if it does (full disk) the partial file stays, refuted by a witness. Only own files are ever removed, without any proviso."
  },
  {
   "property": "C51",
   "status": "partial",
   "theorems": [
    "C51_save_temps_partial",
    "C51_save_temps_refuted",
    "C51_output_refuted"
   ],
   "note": "Nothing is removed, in all cases. The IR is in the documented temporary if no two inputs share an output name and the temporary is not also the name given with -o; both provisos are needed (refuted by witnesses without them)."
  },
  {
   "property": "C52",
   "status": "proved",
   "theorems": [
    "C52_clang_command"
   ],
   "note": ""
  },
  {
   "property": "C53",
   "status": "partial",
   "theorems": [
    "C53_no_output_on_error_partial",
    "C53_no_output_on_error_refuted",
    "C53_executable_refuted"
   ],
   "note": "Under the provisos that no two inputs share an output name and that the executable is not named like a temporary ; refuted by witnesses without them."
  },
  {
   "property": "C54",
   "status": "proved",
   "theorems": [
    "C54_help_version",
    "C54_status",
    "C54_success_means",
    "C54_success_when",
    "C54_clang_failure",
    "C54_mode",
    "C54_levels"
   ],
   "note": ""
  },
  {
   "property": "C55",
   "status": "proved",
   "theorems": [
    "C55_independent",
    "C55_independent_clang"
   ],
   "note": ""
  },
  {
   "property": "C56",
   "status": "partial",
   "theorems": [
    "C56_other_files_kept",
    "C56_sources_kept_partial",
    "C56_inputs_kept_refuted",
    "C56_source_overwritten_refuted"
   ],
   "note": "Nothing but outputs and temporaries changes, in every run. Inputs are safe unless an input has the name of an output or temporary; blang does not check this, refuted by two witnesses."
  },
  {
   "property": "C57",
   "status": "partial",
   "theorems": [
    "C57_own_output_partial",
    "C57_own_output_refuted"
   ],
   "note": "Proved when the output names differ; two inputs of the same base name share one output, refuted by a witness."
  },
  {
   "property": "C24",
   "status": "proved",
   "theorems": [
    "C24_module_well_formed"
   ],
   "note": "Blocks are identified by position in the function; registers by the number the model gives them when created (llir numbers them when printing)."
  },
  {
   "property": "C22",
   "status": "partial",
   "theorems": [
    "C22_block_labels_unique_partial",
    "C22_tree_partial",
    "C22_block_labels_unique_refuted"
   ],
   "note": "For every source text the first block is called entry and the other names are distinct; all are distinct if no function uses a label called entry (stated on the program tree). A label called entry gives two blocks of that name, refuted by a witness."
  },
  {
   "property": "C23",
   "status": "partial",
   "theorems": [
    "C23_blocks_terminated_partial",
    "C23_tree_partial",
    "C23_gotos_defined_partial",
    "C23_blocks_terminated_refuted"
   ],
   "note": "A goto to an undefined label leaves an empty block without terminator, refuted by a witness. Every other block is terminated: exactly the undefined labels are open."
  },
  {
   "property": "C61",
   "status": "partial",
   "theorems": [
    "C61_parameter_and_labels_distinct_partial",
    "C61_parameter_and_labels_distinct_refuted"
   ],
   "note": "A label with the name of the first parameter clashes, refuted by a witness; proved when no such label is used and the parameter is not called entry."
  },
  {
   "property": "C10",
   "status": "partial",
   "theorems": [
    "C10_precedence_partial",
    "C10_unambiguous_partial",
    "C10_precedence_refuted"
   ],
   "note": "Every text of the grammar with the shift operators on the level of the relational ones compiles as its tree, with every layout; with the shifts on their own level (B's table) the claim is refuted: a<b<<c is taken as (a<b)<<c."
  },
  {
   "property": "C11",
   "status": "partial",
   "theorems": [
    "C11_layout_partial",
    "C11_layout_refuted"
   ],
   "note": "Two texts of the same tree compile alike; the grammar says where layout may stand. Refuted for layout between the name of a function and the parenthesis in a definition."
  },
  {
   "property": "C12",
   "status": "partial",
   "theorems": [
    "C12_accepted_partial",
    "C12_rejected_partial",
    "C12_accepted_refuted"
   ],
   "note": "Every text of the grammar whose tree obeys the scope rules of SpecStatic is accepted, every other text of the grammar is rejected (C72: so is what is no text of the grammar). Refuted for B's free layout."
  },
  {
   "property": "C13",
   "status": "proved",
   "theorems": [
    "C13_lvalue_required"
   ],
   "note": "Texts are those of the grammar SpecAccept; of the 7-bit sources all others are rejected as well (C72)."
  },
  {
   "property": "C14",
   "status": "proved",
   "theorems": [
    "C14_undeclared_assignment"
   ],
   "note": "Texts are those of the grammar SpecAccept; of the 7-bit sources all others are rejected as well (C72)."
  },
  {
   "property": "C15",
   "status": "proved",
   "theorems": [
    "C15_redeclared",
    "C15_declared"
   ],
   "note": "Texts are those of the grammar SpecAccept; of the 7-bit sources all others are rejected as well (C72)."
  },
  {
   "property": "C16",
   "status": "proved",
   "theorems": [
    "C16_case_outside_switch"
   ],
   "note": "Texts are those of the grammar SpecAccept; of the 7-bit sources all others are rejected as well (C72)."
  },
  {
   "property": "C18",
   "status": "proved",
   "theorems": [
    "C18_extrn_of_function"
   ],
   "note": "Texts are those of the grammar SpecAccept; of the 7-bit sources all others are rejected as well (C72)."
  },
  {
   "property": "C59",
   "status": "partial",
   "theorems": [
    "C59_else_partial",
    "C59_else_refuted"
   ],
   "note": "Holds when else is followed by layout; refuted when '{', ';' or '(' follows directly (that byte is lost)."
  },
  {
   "property": "C60",
   "status": "partial",
   "theorems": [
    "C60_identifiers_partial",
    "C60_identifiers_refuted"
   ],
   "note": "Holds for names of letters, digits and _ that start with a letter and are no keywords; refuted for _x, which can be declared but not used."
  },
  {
   "property": "C17",
   "status": "proved",
   "theorems": [
    "C17_visible_names"
   ],
   "note": ""
  },
  {
   "property": "C19",
   "status": "proved",
   "theorems": [
    "C19_last_function",
    "C19_last_variable"
   ],
   "note": ""
  },
  {
   "property": "C20",
   "status": "proved",
   "theorems": [
    "C20_symbol_names",
    "C20_symbol_injective",
    "C20_symbol_reserved"
   ],
   "note": "The clash with a data object is excluded for names the lexer can produce (no dot in them)."
  },
  {
   "property": "C21",
   "status": "partial",
   "theorems": [
    "C21_symbols_unique_partial",
    "C21_all_symbols_unique_partial",
    "C21_globals_unique_refuted",
    "C21_function_and_variable_refuted"
   ],
   "note": "Function symbols are unique, and so are the globals, for every accepted text, except for the data object of a vector that is defined twice (refuted). All symbols are distinct on texts of the grammar where no name is used both as function and as variable; refuted by x 1;x(){}."
  },
  {
   "property": "C25",
   "status": "partial",
   "theorems": [
    "C25_expressions_partial"
   ],
   "note": "End to end: the module compiled from any text of a program, run by the IR machine of IRSem.v, computes for { declarations return(e); } exactly the value and side effects of the reference semantics (SpecSem.v), for every expression, arguments, memory and behaviour of called functions. Missing: calls whose name is a local variable (false in the code, see C37_calls_refuted); undefined behaviour and non-termination are outside."
  },
  {
   "property": "C26",
   "status": "proved",
   "theorems": [
    "C26_compound_assignment",
    "C26_assignment"
   ],
   "note": "Address of x first and once, then y, then load, operation, store; yields the stored value. Operands are evaluated as the compiled code evaluates them (calls by name do not see local variables, C37)."
  },
  {
   "property": "C27",
   "status": "proved",
   "theorems": [
    "C27_increment"
   ],
   "note": ""
  },
  {
   "property": "C28",
   "status": "proved",
   "theorems": [
    "C28_conditional",
    "C28_right"
   ],
   "note": ""
  },
  {
   "property": "C36",
   "status": "partial",
   "theorems": [
    "C36_programs_partial",
    "C36_bound_irrelevant"
   ],
   "note": "For every text of a program, every host, every memory and world: if the reference semantics gives a result, the compiled module gives exactly that one. Hypotheses that exclude programs: parameters, labels and cases of a switch are distinct, no code directly follows a return (false otherwise, C32), no call through a local variable (false otherwise, C37), no name both variable and function; every accepted 7-bit text has a tree (C72)."
  },
  {
   "property": "C37",
   "status": "partial",
   "theorems": [
    "C37_indirect_partial",
    "C37_direct",
    "C37_computed",
    "C37_calls_refuted"
   ],
   "note": "External variables, computed callees and plain names are called as claimed; a call through an automatic variable or parameter is compiled as a call of the function of that name (refuted)."
  },
  {
   "property": "C29",
   "status": "partial",
   "theorems": [
    "C29_statements_partial",
    "C29_rules"
   ],
   "note": "Whatever the rules of SpecRun.v (written for this purpose, no bounds) derive for the body of a function - any nesting of blocks, if, while, switch, labels, goto and return, any number of iterations - is exactly what a call of the compiled code gives. C29_rules: the rules and the functions of SpecSem.v agree. The functions covered are those without code directly after a return, with distinct labels, parameters and cases of a switch."
  },
  {
   "property": "C30",
   "status": "partial",
   "theorems": [
    "C30_goto_partial",
    "C30_found",
    "C30_continues"
   ],
   "note": "After any number of jumps, goto l continues with the statement labelled l and what follows it, in blocks, ifs, loops and switches. The functions covered are those without code directly after a return, with distinct labels, parameters and cases of a switch."
  },
  {
   "property": "C31",
   "status": "partial",
   "theorems": [
    "C31_selects_partial",
    "C31_none_partial"
   ],
   "note": "The matching case and everything after it in the switch, then the statements after the switch; no match skips the body. The functions covered are those without code directly after a return, with distinct labels, parameters and cases of a switch."
  },
  {
   "property": "C32",
   "status": "partial",
   "theorems": [
    "C32_return_partial",
    "C32_anywhere_partial",
    "C32_end_partial",
    "C32_return_refuted"
   ],
   "note": "True of functions without code directly after a return; false for f(){return(1);return(2);}, where the code gives 2 (refuted)."
  },
  {
   "property": "C33",
   "status": "partial",
   "theorems": [
    "C33_parameters_partial",
    "C33_made",
    "C33_argument"
   ],
   "note": "C33_parameters_partial: fresh, separate words holding the arguments, from which the body runs. C33_argument: f(ps){return(p);} gives the argument at p's position. The functions covered are those without code directly after a return, with distinct labels, parameters and cases of a switch."
  },
  {
   "property": "C34",
   "status": "partial",
   "theorems": [
    "C34_auto",
    "C34_code_partial"
   ],
   "note": "Every execution of auto makes fresh storage of 1 or max(n,1)+1 words with the stated contents, apart from all other words. The functions covered are those without code directly after a return, with distinct labels, parameters and cases of a switch."
  },
  {
   "property": "C35",
   "status": "partial",
   "theorems": [
    "C35_storage_partial",
    "C35_storage_refuted"
   ],
   "note": "In memory loaded from the module, x; holds 0, x v1,..,vn; n consecutive words, x[n] v1,..,vk; the address of the words, then zeros. Missing: a vector with more initialisers than its written size (refuted: v[1] 1,2;), and sizes of 2^62 and more."
  },
  {
   "property": "C58",
   "status": "partial",
   "theorems": [
    "C58_defined_here",
    "C58_extrn_refuted"
   ],
   "note": "False: extrn x makes the file define the symbol b.x itself (C58_defined_here, for every accepted file), so the two files define the symbol twice (refuted with x 5; and main(){extrn x;return(x);})."
  },
  {
   "property": "C62",
   "status": "proved",
   "theorems": [
    "C62_literals",
    "C62_function",
    "C62_value"
   ],
   "note": "C62_literals: the k-th literal of the text. C62_function: the i-th literal of a function's body is where the reference semantics looks for it. C62_value: a function returning a literal."
  },
  {
   "property": "C46",
   "status": "partial",
   "theorems": [
    "C46_status_partial",
    "C46_end_partial",
    "C46_return_partial",
    "C46_exit",
    "C46_exit_main_partial",
    "C46_program_partial"
   ],
   "note": "The process (start.c) ends with exactly the value main completes with by the rules of SpecRun.v, 0 at its end; a call of exit at any place ends it at once with status 0. C46_program_partial: the same for whole programs by SpecSem.v, exit in functions called by main included. main has no code directly after a return, and distinct labels and cases."
  },
  {
   "property": "C63",
   "status": "proved",
   "theorems": [
    "C63_hello",
    "C63_script",
    "C63_printf_partial",
    "C63_write"
   ],
   "note": "C63_hello: from the text main(){printf(literal);} to the bytes on the output, for every literal without % and null characters. C63_script: any list of printf(literal) and write(constant) lines. C63_printf_partial, C63_write: one call in any program, with conversions (within the limits of C42)."
  },
  {
   "property": "C64",
   "status": "partial",
   "theorems": [
    "C64_endless_partial",
    "C64_ends_partial",
    "C64_exactly_partial",
    "C64_process_partial"
   ],
   "note": "Source reaching every bound (endless) gives code that can make n steps for every n and never ends; code that ends gives a bound at which the source gives the same result or is undefined. Excluded programs as in C36: duplicate parameters, labels or cases, code directly after a return, calls through local variables, a name both variable and function."
  },
  {
   "property": "C65",
   "status": "proved",
   "theorems": [
    "C65_well_typed"
   ],
   "note": "Every source text; the type of a register is the result type of an instruction assigning it (exactly one by C24)."
  },
  {
   "property": "C66",
   "status": "proved",
   "theorems": [
    "C66_phi_and_entry"
   ],
   "note": "Every source text."
  },
  {
   "property": "C67",
   "status": "partial",
   "theorems": [
    "C67_switch_values_partial",
    "C67_switch_values_refuted"
   ],
   "note": "False: switch(x){case 1: case 1:} is accepted. Proved when the cases of each switch of the source are different."
  },
  {
   "property": "C68",
   "status": "partial",
   "theorems": [
    "C68_call_arguments_partial",
    "C68_call_arguments_refuted"
   ],
   "note": "False: f(a){} main(){f();} calls a function with one fixed parameter without arguments. Proved when functions the file defines with parameters are not called by name with an empty list."
  },
  {
   "property": "C69",
   "status": "partial",
   "theorems": [
    "C69_assigned_first_partial",
    "C69_assigned_first_refuted"
   ],
   "note": "False: in main(c){if(c){auto x;} x=1;} the storage of x is not made on the way past the if. Proved for programs meeting the criterion sure_function of SpecSure.v: automatic variables are used only where every way through the text passes their declaration; labels may stand after the declarations in force at the first of them."
  },
  {
   "property": "C70",
   "status": "partial",
   "theorems": [
    "C70_addresses",
    "C70_lengths_partial",
    "C70_lengths_refuted"
   ],
   "note": "Addresses: every source text. Lengths: false for v[18446744073709551615]; (an array of 0 elements with one value); proved for vectors of sizes below 2^63."
  },
  {
   "property": "C71",
   "status": "partial",
   "theorems": [
    "C71_valid_modules_partial",
    "C71_valid_modules_refuted"
   ],
   "note": "All rules together (valid_module, SpecValid.v) for every text of a program without the constructions each rule is refuted by: names used both as function and variable, vectors defined twice or of size 2^63 and more, labels called entry or like the first parameter, gotos without label, equal cases, functions with parameters called without arguments, automatic variables used around their declaration."
  },
  {
   "property": "C72",
   "status": "proved",
   "theorems": [
    "C72_language",
    "C72_any_tree",
    "C72_rejected",
    "C72_last",
    "C72_strict_refuted"
   ],
   "note": "Sources of 7-bit characters without NUL; with C12 an equivalence. The grammar is SpecAccept.v: that of SpecText.v with eight marked liberties (names beginning with digits, trailing commas, missing initial values, words joined across layout, switch without parentheses, any character after else, level of the shift operators). C72_strict_refuted: with the grammar of the language definition alone the claim is false (1x;)."
  },
  {
   "property": "C73",
   "status": "partial",
   "theorems": [
    "C73_meaning_partial"
   ],
   "note": "Every accepted 7-bit source has a tree; the module does what the reference semantics says for any of its trees, and is valid if the tree is clean. The tree must be regular as in C36 and clean as in C71."
  },
  {
   "property": "C74",
   "status": "proved",
   "theorems": [
    "C74_command_line",
    "C74_order",
    "C74_anywhere"
   ],
   "note": "pflag 1.0.10 is not in /repo; Cmdline.v follows its published algorithm (trusted). Values of -L and -l with quotation marks or line ends are read by an arbitrary CSV reader. pflag also skips words like -test.x; the grammar says so."
  },
  {
   "property": "C75",
   "status": "partial",
   "theorems": [
    "C75_defaults_partial",
    "C75_default_level_refuted"
   ],
   "note": "All but the optimization level: blang hello.b gives clang no -O option, the documented default is -O1 (refuted by a witness)."
  },
  {
   "property": "C76",
   "status": "partial",
   "theorems": [
    "C76_nothing_done_partial",
    "C76_status",
    "C76_wrong_is_error_refuted"
   ],
   "note": "Nothing is touched, but the status is 0: pflag calls the usage function of main.go, which ends the process with status 0 (refuted; C76_status: always)."
  },
  {
   "property": "C77",
   "status": "partial",
   "theorems": [
    "C77_spellings",
    "C77_one_each_partial",
    "C77_one_each_refuted"
   ],
   "note": "All names without comma, quotation mark and line end; -L a,b adds two directories (refuted by a witness)."
  },
  {
   "property": "C78",
   "status": "partial",
   "theorems": [
    "C78_links",
    "C78_result",
    "C78_program_partial",
    "C78_program_refuted"
   ],
   "note": "For lists of objects the exact condition (iff). For source files: not if the program has a variable fout and uses writeb (refuted by a witness: writeb.o defines fout too), and not if it defines its own writeb. The linker's rule for objects and archives is trusted."
  },
  {
   "property": "C79",
   "status": "proved",
   "theorems": [
    "C79_shared_variable"
   ],
   "note": ""
  },
  {
   "property": "C80",
   "status": "partial",
   "theorems": [
    "C80_files_partial",
    "C80_exactly_partial",
    "C80_process_partial",
    "C80_division_partial",
    "C80_linked_once",
    "C80_storage_partial",
    "C80_literals",
    "C80_machines"
   ],
   "note": "The provisos of C36 (regular functions, no name a variable and a function in a file) and of C35 (vectors with more initialisers than their size). What linking makes of modules (private symbols stay apart, others are shared) is stated in Files.v and trusted; C80_linked_once: files that can be linked define no function twice."
  },
  {
   "property": "C81",
   "status": "partial",
   "theorems": [
    "C81_executable",
    "C81_behaves_partial"
   ],
   "note": "The provisos of C36 (regular functions) and: all files are .b files, no -l option, no temporary has the name of the executable or begins with a dash. That clang is right is a hypothesis (toolchain, SpecTool.v), met in C81_ex."
  },
  {
   "property": "C82",
   "status": "proved",
   "theorems": [
    "C82_one",
    "C82_several",
    "C82_char",
    "C82_lchar",
    "C82_lchar_outside",
    "C82_stored",
    "C82_writeb",
    "C82_printd",
    "C82_printo",
    "C82_write",
    "C82_nwrite",
    "C82_flush",
    "C82_read",
    "C82_nread",
    "C82_copy"
   ],
   "note": "printf is C63, exit C46. The kernel is a parameter; a negative count for nwrite writes nothing in the model. A byte of memory nobody has written has an arbitrary value in the C code, C82_char is about bytes that have one."
  },
  {
   "property": "C83",
   "status": "partial",
   "theorems": [
    "C83_stage",
    "C83_kept",
    "C83_session",
    "C83_link",
    "C83_behaves_partial"
   ],
   "note": "Partial as C81: the reference semantics of C80 covers the programs called regular there. Clang, the assembler and the linker are parameters; what is asked of them is the record stages. Archives (.a) and -l are left out. Names that get in each other's way are excluded by clean and names_apart."
  },
  {
   "property": "C84",
   "status": "proved",
   "theorems": [
    "C84_fizzbuzz",
    "C84_fibonacci",
    "C84_digits",
    "C84_hello"
   ],
   "note": "The exact texts of examples/fizzbuzz.b, fibonacci.b, e-2.b, hello.b and helloworld.b. Each theorem is for every value of the variable n the program starts with (and every length of the vector v of e-2.b), not only for the value in the text. Hypotheses: the module is loaded by linked/with_library as everywhere else, the stack has room for the variables of main (ready). C84_fibonacci leaves out the numbers whose 64-bit result is -2^63: printf prints a minus sign and no digits there (C63)."
  },
  {
   "property": "C85",
   "status": "partial",
   "theorems": [
    "C85_system_call",
    "C85_declared",
    "C85_declared_refuted",
    "C85_errors",
    "C85_errors_refuted",
    "C85_read",
    "C85_read_refuted"
   ],
   "note": "On every target the right call is made and its result returned. On Linux for all three processors also: nothing changes that the asm statement does not declare, negative results are errors, read sees end of file and errors. On macOS these three are false: the kernel leaves a second result in rdx/x1, and reports errors by the carry flag with a positive number (refuted; the Darwin convention is stated in Syscall.v and trusted, as is the meaning of asm statements)."
  },
  {
   "property": "C86",
   "status": "proved",
   "theorems": [
    "C86_message",
    "C86_rules",
    "C86_cause",
    "C86_status",
    "C86_printed"
   ],
   "note": "For texts of the grammar xP; messages for texts outside of it (syntax errors) are covered by C87. C86_status: one input file, any mode, whatever else fails; C86_printed: the whole command from its arguments, if no file operation fails; the colours are left out. That C10 and C11 give the same error, not only some error, is now part of those theorems."
  },
  {
   "property": "C87",
   "status": "proved",
   "theorems": [
    "C87_catalogue",
    "C87_all_given",
    "C87_final",
    "C87_prefix",
    "C87_equal_refuted",
    "C87_comment_refuted",
    "C87_operand_refuted"
   ],
   "note": "All texts, of the grammar or not. C87_final is for readers that do not fail. The three refutations show that the provisos of the statement are needed: a wrong '=' may become '==', a wrong '/' may begin a comment, an operand that is no lvalue may get a subscript."
  },
  {
   "property": "C88",
   "status": "proved",
   "theorems": [
    "C88_same",
    "C88_verbose_only",
    "C88_add_v",
    "C88_quiet",
    "C88_narration",
    "C88_announced"
   ],
   "note": "The driver is modelled a second time with everything it prints (DriverOut.v); C88_same proves that both models do the same to files and processes. C88_verbose_only is for any two command lines that differ only in -v, C88_add_v for -v put in front. The example in doc/CLI.md lacks the last line (C88_ex), and prints clang where exec prints the path it found (t_clang). Standard output and error output are taken as one sequence; that the streams are unbuffered is a property of Go. The colours are left out."
  },
  {
   "property": "C89",
   "status": "proved",
   "theorems": [
    "C89_reports",
    "C89_source",
    "C89_information",
    "C89_once_refuted",
    "C89_line_refuted",
    "C89_format_refuted"
   ],
   "note": "The texts the operating system gives are an oracle (t_error), indexed by the operation. The three refutations concern promises of doc/CLI.md beyond the statement: a source that cannot be opened is reported twice; when the output cannot be created the two messages come on one line; the messages do not end with 'compilation terminated.'. What clang prints itself is lost (its standard error output is not connected), so a failed clang is reported by its exit status only; the documented message about a missing runtime/libb.a does not exist."
  },
  {
   "property": "C90",
   "status": "proved",
   "theorems": [
    "C90_names",
    "C90_behaviour",
    "C90_called_refuted",
    "C90_readable_refuted"
   ],
   "note": "alike is defined on trees by walking through both programs with the list of local variables declared so far. The refutations show that the exceptions in the statement are needed: a local variable whose name is called cannot be renamed, as the call looks for a function anyway (C90_called_refuted); the names of blocks left out of same_code do count for LLVM, a label renamed to entry gives a module with two blocks of that name (C90_readable_refuted, see C22 and C61)."
  },
  {
   "property": "C91",
   "status": "proved",
   "theorems": [
    "C91_linear",
    "C91_accepted",
    "C91_text_refuted"
   ],
   "note": "C91_linear is for every text with a tree of the grammar, C91_accepted for every accepted 7-bit text. The term for vectors is needed: a text of 24 characters is given a module of more than 10^18 initial words (C91_text_refuted), because irbuilder.go:170-186 stores only vectors without any initial value compactly; the size of the compact form does not depend on the length."
  },
  {
   "property": "C92",
   "status": "partial",
   "theorems": [
    "C92_accepted",
    "C92_behaviour_partial",
    "C92_machines",
    "C92_accepted_refuted",
    "C92_twice_refuted"
   ],
   "note": "Acceptance (C92_accepted) is unconditional under the provisos of the statement. The behaviour is partial as for C36: the definitions must be regular (regularD), and only calls that do nothing undefined are compared. reordered says that the surroundings are the same and that each literal has one place in both programs; C92_machines builds such a machine for every machine. The refutations show that the provisos are needed: the extrn of a function is refused only after its definition (C92_accepted_refuted), and of two definitions the last counts (C92_twice_refuted)."
  },
  {
   "property": "C93",
   "status": "proved",
   "theorems": [
    "C93_messages",
    "C93_characters",
    "C93_numerals",
    "C93_words"
   ],
   "note": "C93_messages follows from the catalogue of the messages (C87), whose quoted names are now the UTF-8 forms of runes that are letters or digits. The other three fix the Go primitives of Base.v (fmt %c and %d, int64 arithmetic) that the model and the specifications share, by definitions independent of them."
  },
  {
   "property": "C94",
   "status": "proved",
   "theorems": [
    "C94_prefix",
    "C94_functions",
    "C94_variables",
    "C94_literals"
   ],
   "note": "For texts with a tree of the grammar. C94_functions is an equivalence for functions with a body; external declarations may be added or replaced by definitions. That a name defined again gets the code of the later definition is C19."
  },
  {
   "property": "C95",
   "status": "proved",
   "theorems": [
    "C95_added",
    "C95_removed",
    "C95_removed_refuted"
   ],
   "note": "more_parentheses (SpecParen.v) says where parentheses may be added. C95_removed_refuted shows that acceptance holds in one direction only: g==1 with an undeclared g is rejected, (g)==1 is not. C95_target and C95_called are the positions that are excluded."
  },
  {
   "property": "C96",
   "status": "proved",
   "theorems": [
    "C96_same",
    "C96_scope"
   ],
   "note": "Equality of the whole result of the compiler, module or message. same_braces (SpecBrace.v) is the least congruence with the listed laws."
  },
  {
   "property": "C97",
   "status": "partial",
   "theorems": [
    "C97_language",
    "C97_behaviour_partial",
    "C97_word_refuted",
    "C97_compound_refuted"
   ],
   "note": "C97_language is an equality of the meanings of the trees, undefined behaviour included; C97_behaviour_partial carries it to the compiled modules. Partial as C64: for regular programs and where the text does nothing undefined. Both texts are supposed accepted: a law may drop the only use of an undeclared name. C97_word_refuted and C97_compound_refuted are two expected laws that the code breaks."
  },
  {
   "property": "C98",
   "status": "partial",
   "theorems": [
    "C98_behaviour_partial",
    "C98_extern_refuted",
    "C98_pointer_refuted"
   ],
   "note": "Partial as C64: regular programs, and calls that do nothing undefined. kept (MemFacts.v): words that could be accessed still can, with the same contents. The two refuted theorems show that the restriction on the targets is needed."
  },
  {
   "property": "C99",
   "status": "partial",
   "theorems": [
    "C99_ends_partial"
   ],
   "note": "Partial as C64: regular programs, and calls that do nothing undefined. calm (SpecCalm.v): a rank of the functions by which every call goes down. That loops, jumps and recursion must be excluded is shown by C64_ex."
  }
 ]
}
