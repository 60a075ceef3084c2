{"id": "C01", "title": "Integer literals denote their positional value", "statement": "A maximal run of decimal digits in the source is read as one integer: base 8 if its first digit is 0, base 10 otherwise (the digits 8 and 9 are accepted in octal and count 8 and 9), reduced to a 64-bit two's-complement word; exactly the run is consumed and the character after it is still available.", "quantifier": "every digit string of every length, followed by any input", "why_tests_cant": "there are infinitely many literals, including ones that overflow the word; tests sample six", "anchors": ["lexer.go:Lexer.Number"]}
{"id": "C02", "title": "Character constants pack big-endian into a word", "statement": "'...' with 0 to 8 (escaped or plain) characters has as value the big-endian base-256 number of its bytes as a 64-bit word, consumes exactly through the closing quote, and a constant with 9 or more characters, or with no closing quote, is rejected.", "quantifier": "every sequence of characters and escapes, every length, any following input", "why_tests_cant": "256^8 contents and all over-long ones; tests use four", "anchors": ["lexer.go:Lexer.Character", "lexer.go:Lexer.Escape"]}
{"id": "C03", "title": "Exactly the documented escapes are accepted", "statement": "In strings and character constants *0 *e ** *' *\" *( *) *t *n *r denote NUL NUL * ' \" { } TAB LF CR; '*' followed by any other byte is a compile error.", "quantifier": "every byte after '*', in every string or character constant", "why_tests_cant": "a table must be exact on all 256 bytes and inside every literal", "anchors": ["lexer.go:Lexer.Escape", "lexer.go:Lexer.String", "lexer.go:Lexer.Character"]}
{"id": "C04", "title": "String literals reach the program byte for byte, NUL-terminated", "statement": "A string literal creates one private read-only object holding exactly the literal's bytes (escapes decoded) followed by one NUL byte. Full statement is for every byte content.", "quantifier": "every byte string, with every way of escaping it", "why_tests_cant": "contents are unbounded; the code goes through a rune slice and UTF-8, which only shows on bytes >= 0x80", "anchors": ["lexer.go:Lexer.String", "irbuilder.go:Compiler.CreateStringConstant"]}
{"id": "C05", "title": "Comments and white space are skipped exactly", "statement": "Before a token any mixture of white-space bytes and /* ... */ comments (whose body does not contain */, but may contain stars and slashes) is skipped completely and nothing else is; a comment with no closing */ is a compile error.", "quantifier": "every layout string and every following input", "why_tests_cant": "layout strings are unbounded and include pathological star runs", "anchors": ["lexer.go:Lexer.Whitespace", "lexer.go:Lexer.Comment"]}
{"id": "C06", "title": "Identifiers are the maximal run of letters, digits and underscores", "statement": "After layout, the longest run of letters, digits and underscores is taken as the identifier and the next byte is left in the input; no other input is consumed.", "quantifier": "every input", "why_tests_cant": "maximal munch has to hold for every run and every terminator byte", "anchors": ["lexer.go:Lexer.Identifier"]}
{"id": "C07", "title": "Push-back is a faithful stream", "statement": "Any interleaving of reading a character and pushing characters back behaves as operations on one character sequence: pushed-back characters come back in LIFO order before the rest of the file, none is lost or duplicated, and end of input is reported only when both are exhausted.", "quantifier": "every history of read and push-back calls on every input", "why_tests_cant": "the property is about all histories of a two-part mutable buffer", "anchors": ["lexer.go:Lexer.ReadChar", "lexer.go:Lexer.UnreadChar", "lexer.go:runeReaderAdapter.ReadRune"]}
{"id": "C08", "title": "Compilation terminates on every input", "statement": "For every byte sequence given as a source file, and whether or not reading it finally fails, the front end returns: either an error or a module. It never loops.", "quantifier": "every byte sequence, every read outcome", "why_tests_cant": "termination on all inputs is not testable", "anchors": ["parser_decls.go:ParseDeclarations", "parser_stmt.go", "expressions.go", "lexer.go"]}
{"id": "C09", "title": "A read failure is a compile failure", "statement": "If reading the source file fails with an I/O error before end of file, compilation of that file reports an error, whatever prefix was read; a truncated program is never silently accepted because of an I/O error.", "quantifier": "every prefix after which reading fails", "why_tests_cant": "needs a failing reader at every byte position of every program", "anchors": ["lexer.go:Lexer.ReadChar", "parser_decls.go:ParseDeclarations"]}
{"id": "C10", "title": "Operator precedence and associativity", "statement": "An expression written with B's precedence table (postfix, unary, * / %, + -, << >>, relational, equality, &, |, ?:, assignment; left associative except ?: and assignment) and only the parentheses that table needs is compiled as the intended operator tree.", "quantifier": "every expression tree of every depth, every layout between its tokens", "why_tests_cant": "combinations of operators are unbounded; tests try 33", "anchors": ["expressions.go:parseExpressionWithLevel", "expressions.go:parseUnary", "expressions.go:parsePostfix"]}
{"id": "C11", "title": "Layout does not change the generated code", "statement": "Two renderings of the same program that differ only in white space and comments between tokens produce the same module.", "quantifier": "every program and every pair of layouts", "why_tests_cant": "layouts are unbounded and the scanner peeks characters, not tokens, so each peek is a place to get it wrong", "anchors": ["lexer.go:Lexer.Whitespace", "expressions.go", "parser_stmt.go", "parser_decls.go"]}
{"id": "C12", "title": "Every B program in the documented grammar is accepted", "statement": "Any program built from the documented declarations, statements and expressions whose identifiers are declared before use compiles without an error.", "quantifier": "every program of the grammar", "why_tests_cant": "programs are unbounded", "anchors": ["parser_decls.go", "parser_stmt.go", "expressions.go"]}
{"id": "C13", "title": "Only lvalues can be assigned, incremented or have their address taken", "statement": "Assignment, compound assignment, prefix and postfix ++/-- and & applied to an expression that does not designate storage (a constant, a call, an arithmetic result, a parenthesised expression, a postfix ++/--) is a compile error.", "quantifier": "every operand expression that is not an lvalue, in every context", "why_tests_cant": "operands are unbounded", "anchors": ["expressions.go:parseExpressionWithLevel", "expressions.go:parseUnary", "expressions.go:parsePostfix"]}
{"id": "C14", "title": "Assigning to an undeclared name is rejected", "statement": "'x = ...' where x is neither a parameter, nor an auto, nor extrn in the current function is a compile error, in particular when x is a global defined before, or extrn in an earlier function, or a function.", "quantifier": "every program, every name, every declaration history", "why_tests_cant": "depends on the whole history of declarations before the point", "anchors": ["expressions.go:parsePrimary", "irbuilder.go:Compiler.GetAddress", "irbuilder.go:Compiler.ClearTopLevelContext"]}
{"id": "C15", "title": "A local name is declared at most once per function", "statement": "An auto declaration of a name that is already a parameter or an auto of the same function (in the same or an earlier auto statement) is a compile error; otherwise the declaration is accepted and from then on the name denotes the new variable.", "quantifier": "every function and every list of auto declarations", "why_tests_cant": "lists and their positions are unbounded", "anchors": ["parser_stmt.go:parseAuto", "irbuilder.go:Compiler.DeclareLocal"]}
{"id": "C16", "title": "case only inside its switch", "statement": "A case label that is not (directly, through blocks and labels) in the body of a switch is a compile error.", "quantifier": "every statement context", "why_tests_cant": "contexts are unbounded", "anchors": ["parser_stmt.go:parseCase"]}
{"id": "C17", "title": "Names do not leak from one top-level definition to the next", "statement": "What extrn and auto make visible in one function has no influence on how names are resolved in the next definition: the visible names at the start of every definition are exactly its parameters.", "quantifier": "every sequence of definitions", "why_tests_cant": "histories of definitions are unbounded", "anchors": ["irbuilder.go:Compiler.ClearTopLevelContext", "irbuilder.go:Compiler.StartFunction", "irbuilder.go:Compiler.EndFunction"]}
{"id": "C18", "title": "A function name cannot be redeclared as a variable by extrn", "statement": "extrn of a name that is already defined or already called as a function in this file (and is not a variable) is a compile error; extrn of a name already defined as a variable refers to that variable's storage.", "quantifier": "every history of definitions and calls before the extrn", "why_tests_cant": "depends on the whole history", "anchors": ["parser_stmt.go:parseExtrn", "irbuilder.go:Compiler.findGlobalByName", "irbuilder.go:Compiler.findFuncByName"]}
{"id": "C19", "title": "A redefinition replaces the earlier definition", "statement": "If a function (or a scalar) is defined several times in a file, the emitted module defines its symbol once, with the last body (value).", "quantifier": "every sequence of definitions", "why_tests_cant": "histories are unbounded", "anchors": ["irbuilder.go:Compiler.removeFuncByName", "irbuilder.go:Compiler.removeGlobalByName", "irbuilder.go:Compiler.DeclareFunction"]}
{"id": "C20", "title": "Symbol naming", "statement": "main is emitted as 'main', every other B name x as 'b.x'; the mapping is injective, and no B name can produce the name of a string constant, of a vector's data object, or of an LLVM intrinsic.", "quantifier": "every pair of identifiers", "why_tests_cant": "all pairs of names", "anchors": ["irbuilder.go:Compiler.globalName", "irbuilder.go:Compiler.CreateStringConstant"]}
{"id": "C21", "title": "Every symbol of a module is defined once", "statement": "In the module produced for an accepted file no two globals, and no two functions, and no global and function have the same symbol name.", "quantifier": "every accepted source file", "why_tests_cant": "depends on the whole history of declarations", "anchors": ["irbuilder.go", "parser_decls.go", "parser_stmt.go:parseExtrn"]}
{"id": "C22", "title": "Basic-block labels are unique in a function", "statement": "In the module produced for an accepted file no two basic blocks of one function have the same name (whatever the nesting of if, while, switch, ?:, goto and user labels).", "quantifier": "every accepted source file", "why_tests_cant": "nesting is unbounded; the project had this bug twice", "anchors": ["irbuilder.go:Compiler.NewBlock", "irbuilder.go:Compiler.GetOrCreateLabel", "parser_stmt.go", "expressions.go"]}
{"id": "C23", "title": "Every basic block is terminated", "statement": "In the module produced for an accepted file every basic block has a terminator (otherwise printing the module panics).", "quantifier": "every accepted source file", "why_tests_cant": "all control-flow nestings and label placements", "anchors": ["parser_stmt.go", "irbuilder.go:Compiler.EndFunction"]}
{"id": "C24", "title": "Generated IR is well formed", "statement": "In the module produced for an accepted file every branch, switch and phi names a block of the same function, and every virtual register is assigned by exactly one instruction and every register used is assigned by some instruction.", "quantifier": "every accepted source file", "why_tests_cant": "all programs", "anchors": ["expressions.go", "parser_stmt.go", "irbuilder.go"]}
{"id": "C25", "title": "Expressions compute B's values, left to right", "statement": "The code generated for an expression, run from any machine state, computes the value B assigns to it on 64-bit two's-complement words (wrapping + - *, truncating signed / and %, signed comparisons giving 0/1, arithmetic right shift, bitwise & |, logical !), with operands, indexes, callees and arguments evaluated left to right, with exactly the side effects B prescribes.", "quantifier": "every expression, every state, every behaviour of called functions", "why_tests_cant": "expressions and states are unbounded", "anchors": ["expressions.go", "irbuilder.go:Compiler.GetAddress"]}
{"id": "C26", "title": "Compound assignment", "statement": "x =op y for each of the 15 operators stores x op y into x (the address of x is evaluated once, before y) and yields the stored value.", "quantifier": "every lvalue, every operand, every state", "why_tests_cant": "operands and states are unbounded", "anchors": ["expressions.go:parseExpressionWithLevel"]}
{"id": "C27", "title": "Increment and decrement", "statement": "++x and --x store x+1 / x-1 (wrapping) and yield the new value; x++ and x-- store the same and yield the old value; the address of x is evaluated once.", "quantifier": "every lvalue and state", "why_tests_cant": "states are unbounded", "anchors": ["expressions.go:parseUnary", "expressions.go:parsePostfix"]}
{"id": "C28", "title": "The conditional operator evaluates one branch", "statement": "a ? b : c evaluates a, then exactly one of b and c, and yields that value; nested conditionals associate to the right.", "quantifier": "every a, b, c and state", "why_tests_cant": "branches are unbounded expressions", "anchors": ["expressions.go:parseExpressionWithLevel"]}
{"id": "C29", "title": "if, while and blocks execute as written", "statement": "Code generated for if/else, while and blocks executes the conditions and bodies in the order B prescribes, for any nesting and any number of iterations.", "quantifier": "every statement, every state, every terminating execution", "why_tests_cant": "nestings and iteration counts are unbounded", "anchors": ["parser_stmt.go:parseIf", "parser_stmt.go:parseWhile"]}
{"id": "C30", "title": "goto transfers control to its label", "statement": "goto L continues with the statement labelled L of the same function, forwards or backwards, into or out of nested statements.", "quantifier": "every function and label placement", "why_tests_cant": "placements are unbounded", "anchors": ["parser_stmt.go:parseGoto", "irbuilder.go:Compiler.GetOrCreateLabel"]}
{"id": "C31", "title": "switch selects the matching case and falls through", "statement": "switch (e) continues at the case whose constant equals e, falls through from one case to the next, and skips the body if no case matches.", "quantifier": "every switch body and value", "why_tests_cant": "bodies and values are unbounded", "anchors": ["parser_stmt.go:parseSwitch", "parser_stmt.go:parseCase"]}
{"id": "C32", "title": "return ends the function with its value", "statement": "return(e) ends the call with the value of e, return; and running off the end with 0, and nothing after it in the function is executed.", "quantifier": "every function and every placement of return", "why_tests_cant": "placements are unbounded; the IR builder lets a later terminator overwrite an earlier one", "anchors": ["parser_stmt.go:parseReturn", "irbuilder.go:Compiler.EndFunction"]}
{"id": "C33", "title": "Parameters receive the arguments in order", "statement": "On entry to a function with parameters p1..pn called with m >= n arguments, pi holds the i-th argument, each in its own modifiable storage; extra arguments are ignored.", "quantifier": "every parameter list and argument list", "why_tests_cant": "lists are unbounded; the code uses two different mechanisms for the first and the other parameters", "anchors": ["irbuilder.go:Compiler.DeclareFunction", "irbuilder.go:Compiler.StartFunction"]}
{"id": "C34", "title": "Automatic storage", "statement": "auto x starts as 0 each time the declaration is executed; auto v[n] reserves n+1 consecutive words (2 if n is 0 or omitted) of fresh storage with v's own word holding the address of the first of the n following words.", "quantifier": "every auto statement, every state", "why_tests_cant": "sizes and states are unbounded", "anchors": ["irbuilder.go:Compiler.DeclareLocal", "irbuilder.go:Compiler.DeclareLocalArray", "parser_stmt.go:parseAuto"]}
{"id": "C35", "title": "Global storage and initial values", "statement": "x; is one zero word; x v1,...,vn; is n consecutive words with those values; x[n] v1,...,vk; is a word holding the address of max(n,...) consecutive words that hold v1..vk and then zeros, n omitted meaning k (1 if k = 0).", "quantifier": "every global declaration", "why_tests_cant": "sizes and lists are unbounded; three code paths", "anchors": ["irbuilder.go:Compiler.DeclareGlobal", "irbuilder.go:Compiler.DeclareGlobalWithMultipleValues", "irbuilder.go:Compiler.DeclareGlobalArray", "parser_decls.go:parseVector", "parser_decls.go:parseGlobal"]}
{"id": "C36", "title": "Whole programs behave as B prescribes", "statement": "For every program of the grammar and every input: if the program terminates under B's semantics with some output and exit value, the emitted module run from main terminates with the same output and exit value.", "quantifier": "every program, every input, every terminating execution", "why_tests_cant": "programs, inputs and run lengths are unbounded", "anchors": ["parser_decls.go", "parser_stmt.go", "expressions.go", "irbuilder.go"]}
{"id": "C37", "title": "Calls through variables are indirect calls", "statement": "name(args) where name is a variable of the function (extrn, auto or parameter) calls the function whose address the variable holds; where name is not a variable it calls the function of that name.", "quantifier": "every call and every declaration history", "why_tests_cant": "histories are unbounded", "anchors": ["expressions.go:parsePrimary", "expressions.go:parsePostfix", "irbuilder.go:Compiler.GetOrDeclareFunction"]}
{"id": "C38", "title": "write prints the characters packed in its argument", "statement": "write(c) outputs the big-endian bytes of the word c without leading zero bytes, at least one byte, in one system call.", "quantifier": "every 64-bit word", "why_tests_cant": "2^64 arguments", "anchors": ["runtime/write.c:b_write"]}
{"id": "C39", "title": "write of a character constant prints that constant", "statement": "write('c1...cn') for 1 <= n <= 8 (first character not NUL unless n = 1) outputs exactly the bytes c1...cn.", "quantifier": "every character constant", "why_tests_cant": "256^8 constants; crosses the compiler and the runtime", "anchors": ["lexer.go:Lexer.Character", "runtime/write.c:b_write"]}
{"id": "C40", "title": "printd prints the decimal representation", "statement": "printd(n) outputs the usual signed decimal numeral of n, for every word including the most negative one.", "quantifier": "every 64-bit word", "why_tests_cant": "2^64 arguments", "anchors": ["runtime/printd.c:b_printd"]}
{"id": "C41", "title": "printo prints the unsigned octal representation", "statement": "printo(n) outputs the octal numeral, without superfluous zeros, of n taken as an unsigned word.", "quantifier": "every 64-bit word", "why_tests_cant": "2^64 arguments", "anchors": ["runtime/printo.c:b_printo"]}
{"id": "C42", "title": "printf interprets its format", "statement": "printf(fmt, a1, ...) outputs fmt with %d, %o, %c, %s replaced by the decimal, signed-octal, packed-character and string forms of successive arguments, %% by %, every other sequence (including a final %) printed verbatim.", "quantifier": "every format string and argument list", "why_tests_cant": "formats are unbounded", "anchors": ["runtime/printf.c:b_printf"]}
{"id": "C43", "title": "char and lchar access single bytes", "statement": "lchar(s,i,c) changes byte i of s to the low byte of c and no other byte; char(s,i) then yields that byte; other positions are unchanged.", "quantifier": "every memory, address, index and character", "why_tests_cant": "states are unbounded", "anchors": ["runtime/char.c:b_char", "runtime/lchar.c:b_lchar"]}
{"id": "C44", "title": "read returns the next input character", "statement": "read() returns the next input byte if it is ASCII and not NUL, 0 for any other byte, and 4 at end of input or on error; successive calls consume the input one byte at a time.", "quantifier": "every input", "why_tests_cant": "inputs are unbounded", "anchors": ["runtime/read.c:b_read"]}
{"id": "C45", "title": "The runtime's digit buffers never overflow", "statement": "printd, printo and write never store outside their local buffers.", "quantifier": "every 64-bit word", "why_tests_cant": "2^64 arguments; printo's buffer has no slack", "anchors": ["runtime/printd.c:b_printd", "runtime/printo.c:b_printo", "runtime/write.c:b_write"]}
{"id": "C46", "title": "Program exit status", "statement": "The process exits with the value returned by main (0 if it runs off the end), and exit() stops it at once with status 0.", "quantifier": "every main", "why_tests_cant": "programs are unbounded", "anchors": ["runtime/start.c:b_start", "runtime/exit.c:b_exit", "irbuilder.go:Compiler.EndFunction"]}
{"id": "C47", "title": "Default output names", "statement": "Without -o each input yields <base name without extension>.ll / .s / .o in the current directory (for an executable, the base name of the first input without extension); with -o the given name is used.", "quantifier": "every input path, every mode", "why_tests_cant": "paths are unbounded (dots, slashes, leading dots)", "anchors": ["driver.go:compileToIR", "driver.go:compileToAssembly", "driver.go:compileToObject", "driver.go:compileToExecutable"]}
{"id": "C48", "title": "-o with several inputs is rejected without effect", "statement": "In the --emit-llvm, -S and -c modes, -o with a number of inputs other than one is an error, no file is read, written or removed and clang is not run.", "quantifier": "every input list, every file system", "why_tests_cant": "lists and file systems are unbounded", "anchors": ["driver.go:compileToIR", "driver.go:compileToAssembly", "driver.go:compileToObject"]}
{"id": "C49", "title": "Inputs with an unsupported extension are rejected without effect", "statement": "If some input's extension is not accepted by the mode (.b; .b .ll; .b .ll .s; .b .ll .s .o .a) blang fails with a non-zero status and no file is written or removed and clang is not run.", "quantifier": "every input list, every file system, every mode", "why_tests_cant": "lists and file systems are unbounded", "anchors": ["driver.go", "main.go:main"]}
{"id": "C50", "title": "Temporary IR files are removed", "statement": "Without --save-temps, when blang returns, with success or failure, at whatever step, every temporary .ll file it created is gone, and no other file was removed.", "quantifier": "every input list, every file system, every outcome of every clang run and of every compilation", "why_tests_cant": "failure points and histories are unbounded", "anchors": ["driver.go:compileToAssembly", "driver.go:compileToObject", "driver.go:compileToExecutable"]}
{"id": "C51", "title": "--save-temps keeps the temporary IR files", "statement": "With --save-temps nothing is removed, and after a successful run each .b input's IR is in the documented temporary file.", "quantifier": "every input list, every file system", "why_tests_cant": "histories are unbounded", "anchors": ["driver.go"]}
{"id": "C52", "title": "The clang command line", "statement": "clang is run with -O<n> iff n > 0, -g iff debug, the inputs in the given order with each .b replaced by its IR, then -static -nostdlib on Linux, the -L directories in order, -lb, the -l libraries in order, and -o with the output name.", "quantifier": "every option set and input list", "why_tests_cant": "combinations are unbounded", "anchors": ["driver.go:compileToExecutable", "driver.go:compileToAssembly", "driver.go:compileToObject"]}
{"id": "C53", "title": "A file that does not compile leaves no output", "statement": "If a .b input has a compile error, its output file is neither created nor modified and clang is not run for it (for an executable: not run at all).", "quantifier": "every source with an error, every file system", "why_tests_cant": "sources and file systems are unbounded", "anchors": ["driver.go:compileToIR", "driver.go:compileToExecutable"]}
{"id": "C54", "title": "Exit status and mode selection", "statement": "blang exits with status 0 exactly if help or version was asked for, or all requested outputs were produced without an error, and with 1 otherwise; -S wins over -c, -c over --emit-llvm, and -O accepts exactly 0,1,2,3.", "quantifier": "every flag combination and every outcome", "why_tests_cant": "combinations are unbounded", "anchors": ["main.go:main"]}
{"id": "C55", "title": "Source files are compiled independently", "statement": "The module produced for one input does not depend on which other inputs are on the command line, nor on their order or contents.", "quantifier": "every list of inputs", "why_tests_cant": "lists are unbounded", "anchors": ["driver.go:compileToIR", "irbuilder.go:NewCompiler"]}
{"id": "C56", "title": "blang does not destroy other files", "statement": "Running blang changes no file except its outputs and its own temporaries, and in particular never overwrites or removes one of its inputs.", "quantifier": "every input list, every file system", "why_tests_cant": "file names are unbounded", "anchors": ["driver.go"]}
{"id": "C57", "title": "One output per input", "statement": "In the modes without linking and without -o, after success every input has its own output file holding its own translation.", "quantifier": "every input list", "why_tests_cant": "lists are unbounded", "anchors": ["driver.go:compileToIR", "driver.go:compileToAssembly", "driver.go:compileToObject"]}
{"id": "C58", "title": "extrn refers to storage defined elsewhere", "statement": "extrn x in a file that does not define x makes the file refer to the storage of the x defined in another linked file.", "quantifier": "every pair of files", "why_tests_cant": "pairs of files are unbounded", "anchors": ["parser_stmt.go:parseExtrn"]}
{"id": "C59", "title": "else belongs to the nearest if and takes the next statement", "statement": "After if (c) S1 the keyword else, followed by anything that is not a letter or digit, makes the complete next statement the alternative; without else nothing after S1 is consumed.", "quantifier": "every statement after else, every following byte", "why_tests_cant": "the check reads one byte too many; tests always put a blank there", "anchors": ["parser_stmt.go:parseIf"]}
{"id": "C60", "title": "Any identifier can be declared and used", "statement": "A name accepted by a declaration (auto, extrn, parameter, definition) can be used in expressions to denote the declared object.", "quantifier": "every identifier", "why_tests_cant": "identifiers are unbounded; declaration and use have different first-character rules", "anchors": ["lexer.go:Lexer.Identifier", "expressions.go:parsePrimary", "parser_stmt.go:parseStatementWithSwitch"]}
{"id": "C61", "title": "Parameter and block names do not clash", "statement": "In the generated function the named parameter and the basic blocks, which share one LLVM name space, have different names.", "quantifier": "every accepted file", "why_tests_cant": "names are unbounded; tests never use the same name for a label and a parameter", "anchors": ["irbuilder.go:DeclareFunction", "irbuilder.go:GetOrCreateLabel"]}
{"id": "C62", "title": "String literals denote their characters", "statement": "The value of a string literal is the address of its characters followed by a null byte, for every literal of a file, and different occurrences get the storage of their own text.", "quantifier": "every accepted file, every literal in it", "why_tests_cant": "the number of literals is unbounded; the numbering has to agree between expressions, initialisers and constants", "anchors": ["irbuilder.go:Compiler.CreateStringConstant", "expressions.go:parsePrimary", "parser_decls.go:parseIvalConst"]}
{"id": "C63", "title": "What a program prints reaches the output", "statement": "A program whose main calls printf with literals and write with character constants, linked with the library, prints their characters in order on the selected file and exits with 0; main(){printf(\"...\");} prints its literal.", "quantifier": "every list of lines, every string, every machine and memory the program is loaded into", "why_tests_cant": "strings and programs are unbounded; crosses the compiler, the calling convention and the library", "anchors": ["expressions.go:parsePostfix", "irbuilder.go:Compiler.CreateStringConstant", "runtime/printf.c:b_printf", "runtime/write.c:b_write", "runtime/start.c:b_start"]}
{"id": "C64", "title": "Programs that do not end", "statement": "A program whose execution does not end in B (an endless loop, jump or recursion) is compiled to code that runs for ever without getting stuck, its process never exits; and if the code ends, the program ends in B with the same result or does something undefined.", "quantifier": "every program, function, arguments, memory and machine", "why_tests_cant": "no test can observe that a run never ends; a loop wrongly left after very many turns would pass", "anchors": ["parser_stmt.go:parseWhile", "parser_stmt.go:parseGoto", "expressions.go:parsePostfix", "runtime/start.c:b_start"]}
{"id": "C65", "title": "Instructions get operands of their types", "statement": "In every function of the module every operand has the type its instruction needs: numbers are i64, conditions of branches i1, addresses pointers; a comparison is widened before it is used as a number and narrowed before it is used as a condition.", "quantifier": "every accepted file, every instruction and terminator", "why_tests_cant": "LLVM rejects a module with one wrong operand; tests reach few of the combinations of expression forms", "anchors": ["expressions.go:parseExpressionWithLevel", "expressions.go:parseUnary", "expressions.go:parsePostfix", "parser_stmt.go:parseIf", "parser_stmt.go:parseWhile", "irbuilder.go:Compiler.StartFunction"]}
{"id": "C66", "title": "Phi instructions name the predecessors of their block", "statement": "A phi instruction stands at the head of its block and has one value for each edge into the block, and nothing branches to the first block of a function.", "quantifier": "every accepted file, every function and block", "why_tests_cant": "conditional expressions nest without bound, and statements and labels open blocks everywhere; LLVM rejects a module that breaks the rule", "anchors": ["expressions.go:parseExpressionWithLevel", "irbuilder.go:Compiler.NewBlock", "irbuilder.go:Compiler.StartFunction", "parser_stmt.go:parseGoto"]}
{"id": "C67", "title": "Values of a switch are different", "statement": "The values of the cases of every switch instruction are different.", "quantifier": "every accepted file, every switch", "why_tests_cant": "LLVM rejects a switch with two equal values; cases may stand anywhere in the statement of the switch, and switches nest", "anchors": ["parser_stmt.go:parseSwitch", "parser_stmt.go:parseCase"]}
{"id": "C68", "title": "Calls pass the fixed parameters", "statement": "A call of a variadic function has an argument for every fixed parameter of the function type it is made with.", "quantifier": "every accepted file, every call", "why_tests_cant": "LLVM rejects a call with too few arguments; the function type depends on what has been seen of the function before the call", "anchors": ["expressions.go:parsePostfix", "irbuilder.go:Compiler.DeclareFunction", "irbuilder.go:Compiler.GetOrDeclareFunction"]}
{"id": "C69", "title": "Registers are assigned before they are used", "statement": "On every path through a function that its branches allow, a register is assigned before an instruction, a terminator or the edge of a phi instruction uses it.", "quantifier": "every accepted file, every function, every path through its blocks", "why_tests_cant": "LLVM rejects a function where one use is not dominated; the storage of an automatic variable is made where auto stands, and control reaches uses through loops, labels, gotos and switches in unboundedly many ways", "anchors": ["irbuilder.go:Compiler.DeclareLocal", "irbuilder.go:Compiler.StartFunction", "parser_stmt.go", "expressions.go"]}
{"id": "C70", "title": "Initial values of variables are well formed", "statement": "An initial value has as many elements as the type of the variable says, and an address in it is that of an element of an array the module defines.", "quantifier": "every accepted file, every variable", "why_tests_cant": "definitions may be repeated, which removes objects others may refer to; sizes and lists of initial values are unbounded", "anchors": ["irbuilder.go:Compiler.DeclareGlobalArray", "irbuilder.go:Compiler.DeclareGlobalWithMultipleValues", "parser_decls.go:parseIvalConst", "parser_decls.go:parseVector"]}
{"id": "C71", "title": "Accepted programs give modules that LLVM accepts", "statement": "The module satisfies all rules together: distinct symbols, blocks and labels named once, everything named exists, every block ends, types agree, phi instructions match the edges, case values differ, calls pass the fixed parameters, registers are assigned before use, initial values are well formed.", "quantifier": "every accepted file", "why_tests_cant": "one broken rule makes clang reject the output; the rules interact over the whole program", "anchors": ["irbuilder.go", "parser_decls.go", "parser_stmt.go", "expressions.go"]}
{"id": "C72", "title": "Only texts of the language are accepted", "statement": "A source is accepted exactly if it is a text of a program tree - by the grammar with the liberties the compiler takes - and the tree obeys the scope rules; every other source is rejected with an error.", "quantifier": "every source of 7-bit characters without NUL", "why_tests_cant": "too lenient parsing shows only on wrong programs nobody thought of; there are infinitely many of them", "anchors": ["lexer.go", "expressions.go", "parser_stmt.go", "parser_decls.go"]}
{"id": "C73", "title": "Every accepted program does what its text says", "statement": "An accepted source has a tree, and the compiled functions do what the reference semantics says for that tree: the same results, effects and non-termination.", "quantifier": "every accepted source of 7-bit characters, every call, arguments, memory and environment", "why_tests_cant": "combines parsing and code generation for arbitrary programs, including those that only the compiler's liberties make legal", "anchors": ["lexer.go", "expressions.go", "parser_stmt.go", "parser_decls.go", "irbuilder.go"]}
{"id": "C74", "title": "Options and files can be given in any order", "statement": "A command line is accepted exactly if it consists of files and documented options, each in one of its spellings, and sets what they say: the last value of an option counts, -L and -l collect, the files keep their order. Where options stand between the files makes no difference.", "quantifier": "every list of argument words", "why_tests_cant": "argument words are arbitrary strings in any number and order, with clusters of letters, joined and separate values", "anchors": ["main.go:main", "doc/CLI.md"]}
{"id": "C75", "title": "Options left out have their documented defaults", "statement": "Without options an executable is made at optimization level 1, without debug information, temporaries are deleted and no libraries are added.", "quantifier": "every command line without options", "why_tests_cant": "the defaults have to reach the clang command through three layers, for all files and environments", "anchors": ["main.go:main", "options.go:NewCompileOptions", "doc/CLI.md", "doc/blang.1"]}
{"id": "C76", "title": "A wrong command line is an error", "statement": "For a command line that is not of the documented form blang reports an error with a status other than 0 and touches nothing.", "quantifier": "every list of argument words, every file system", "why_tests_cant": "wrong command lines are infinitely many; the documented status is what build tools rely on", "anchors": ["main.go:usage", "main.go:main"]}
{"id": "C77", "title": "-L and -l name one directory and one library each", "statement": "Each -L (or --library-dir) adds the directory given to it to the search path, each -l (--library) the library, at its place in the order, in every spelling.", "quantifier": "every command line, every directory or library name", "why_tests_cant": "names are arbitrary strings and the options may be repeated", "anchors": ["main.go:main", "doc/CLI.md"]}
{"id": "C78", "title": "Programs that use the library can be linked", "statement": "A program of one or more source files that define different names, one of them main, and that use only functions defined in the files or in the library is linked: every symbol has exactly one definition, and of the library exactly the needed members are taken.", "quantifier": "every set of source files, every list of object files with any symbols", "why_tests_cant": "which members are taken depends on all files together through the library's own references; a clash shows only for particular combinations", "anchors": ["driver.go:compileToExecutable", "irbuilder.go:CreateStringConstant", "runtime/Makefile", "runtime/writeb.c", "runtime/start.c"]}
{"id": "C79", "title": "Files share functions but never variables", "statement": "Two source files that mention the same variable, by a definition or by extrn, are not linked, whatever the rest of the program is; no program silently has two copies of a variable.", "quantifier": "every two source files, every variable, every other object", "why_tests_cant": "the claim is about all pairs of programs and all link orders", "anchors": ["parser_stmt.go:parseExtrn", "irbuilder.go:DeclareGlobal", "driver.go:compileToExecutable"]}
{"id": "C80", "title": "A program can be divided into files", "statement": "A program whose definitions are in several files, each compiled by itself and the modules linked, does exactly what the reference semantics says of the text of all files together: calls between the files, results, output, exit code, endless runs, the initial values of the variables of each file and the characters of the string literals, although every file numbers its string constants from 0.", "quantifier": "every list of files, every division of a text into files, every machine, call, memory and external world", "why_tests_cant": "each file is compiled without knowledge of the others; string constants of different files have the same names; divisions and programs are unbounded", "anchors": ["driver.go:compileToExecutable", "irbuilder.go:CreateStringConstant", "irbuilder.go:GetOrDeclareFunction", "parser_decls.go:ParseDeclarations"]}
{"id": "C81", "title": "From the command line to the running program", "statement": "If blang, given .b files, ends with status 0 on Linux, the executable it leaves behaves as the text of all files says: output, exit code, or running for ever, starting from the initial values of the variables, provided clang links the IR files it is given correctly.", "quantifier": "every command line, file system, environment, list of source files, input of the program; every clang that does its work", "why_tests_cant": "relates the command line, the driver, the compiler, the linker and the process; programs, inputs and runs are unbounded", "anchors": ["main.go:main", "driver.go:compileToExecutable", "driver.go:compileToIR", "parser_decls.go:ParseDeclarations", "runtime/start.c:b_start"]}
{"id": "C82", "title": "Library functions in a program", "statement": "In a compiled and linked program, of one file or several, char(s,i) gives the byte i of the string at s and lchar(s,i,c) stores the character there, so that char finds it and every other byte stays; write, writeb, printd, printo print their argument on the selected file and change no memory; read takes the next character of the input, or 4 at its end; nwrite writes the bytes of the buffer and nread fills it with what the kernel delivers; flush does nothing. So a program that copies read to write copies every input.", "quantifier": "every program, platform (signed or unsigned char, results of the kernel), memory, argument word, state of input and output", "why_tests_cant": "memories, addresses, words and inputs cannot be enumerated; the C functions are only ever tested on a few strings", "anchors": ["runtime/char.c:b_char", "runtime/lchar.c:b_lchar", "runtime/write.c:b_write", "runtime/writeb.c:b_writeb", "runtime/printd.c:b_printd", "runtime/printo.c:b_printo", "runtime/read.c:b_read", "runtime/nread.c:b_nread", "runtime/nwrite.c:b_nwrite", "runtime/flush.c:b_flush"]}
{"id": "C83", "title": "Separate compilation", "statement": "A program may be made by any sequence of commands: some files compiled with -c, some with -S or --emit-llvm, intermediate files (.ll, .s) taken further, and in the end .b, .ll, .s and .o files linked together. If every command ends with status 0, no command writes over a file needed later and clang is right, every intermediate file has the code of the source it was made from, and the executable behaves as the reference semantics says of the text of all sources together.", "quantifier": "every sequence of commands, option, file name, source text, state of the file system, input", "why_tests_cant": "the sequences of commands, the mixtures of kinds of files and the programs cannot be enumerated", "anchors": ["driver.go:compileToIR", "driver.go:compileToAssembly", "driver.go:compileToObject", "driver.go:compileToExecutable", "main.go:main"]}
{"id": "C84", "title": "The programs in examples/ do what they say", "statement": "The shipped programs compile, and the processes made of them end with status 0 and print exactly: fizzbuzz.b, for each number from 1 to n, FizzBuzz, Fizz, Buzz or the number; fibonacci.b the n-th Fibonacci number modulo 2^64; e-2.b the first 2n decimal digits of the sum 1/2! + ... + 1/(n+1)!, in groups of five, ten groups to a line; hello.b and helloworld.b their greeting.", "quantifier": "every start value of the variable n, length and place of the vector, memory, stack place, state of the operating system", "why_tests_cant": "n and the start state range over all values; the digits of the series depend on every carry of the loop", "anchors": ["examples/fizzbuzz.b", "examples/fibonacci.b", "examples/e-2.b", "examples/hello.b", "examples/helloworld.b", "parser.go:parseStatement", "expressions.go:parseExpression"]}
{"id": "C85", "title": "System calls", "statement": "On every supported target the function syscall of the run-time library makes exactly the system call it is asked for, with its three arguments, and returns the kernel's result; nothing the C compiler relies on is changed behind its back; a negative result says that the call failed; read returns 4 exactly if no byte was read.", "quantifier": "every target, call number, arguments, kernel, contents of registers and memory", "why_tests_cant": "the contents of the registers and what the kernel does range over all values; the compiler uses undeclared registers only in some builds", "anchors": ["runtime/x86_64.h:syscall", "runtime/aarch64.h:syscall", "runtime/riscv64.h:syscall", "runtime/runtime.h", "runtime/read.c:b_read"]}
{"id": "C86", "title": "Error messages say what is wrong", "statement": "A program of the grammar that breaks a scope rule is rejected with the message of the first rule it breaks in the order of the text, whatever follows; the message names the right identifier or operator: an undefined identifier occurs there and no declaration before makes it a variable, an operand that must be an lvalue is none, the name declared twice is declared twice, the extrn name is a function, the case is outside of any switch. blang prints that message on the standard error output and ends with status 1.", "quantifier": "every program of the grammar, layout, place of the error, mode, file name", "why_tests_cant": "the places an error can stand in and the programs around it cannot be enumerated", "anchors": ["expressions.go:parsePrimary", "expressions.go:parsePostfix", "expressions.go:parseUnary", "expressions.go:parseExpressionWithLevel", "parser_stmt.go:parseAuto", "parser_stmt.go:parseExtrn", "parser_stmt.go:parseCase", "driver.go:compileToIR", "main.go:main", "options.go:Eprintf"]}
{"id": "C87", "title": "The diagnostics", "statement": "A source text is rejected with one of a fixed list of messages, or with the error of the reader. What a message quotes is taken from the text: a character that is there, a name made of its letters and digits. Every message of the list is given for some text. A message that names a wrong character other than '=' or NUL, an undefined identifier, escape or operator, or a postfix operator without lvalue is final: when the text is continued by anything that does not begin with '*', the message is the same, so that no such continuation makes the text a program. Without these provisos this is false ('=' may become '==', '/' a comment, an operand may get a subscript).", "quantifier": "every source text, every continuation, every end of the reader", "why_tests_cant": "all texts and all their continuations; tests look at chosen wrong programs", "anchors": ["expressions.go:parseExpressionWithLevel", "expressions.go:parseUnary", "expressions.go:parsePostfix", "expressions.go:parsePrimary", "parser_stmt.go:parseStatementWithSwitch", "parser_stmt.go:parseAuto", "parser_stmt.go:parseExtrn", "parser_decls.go:ParseDeclarations", "lexer.go:ExpectChar", "lexer.go:Whitespace", "lexer.go:Escape", "lexer.go:Character", "lexer.go:String"]}
{"id": "C88", "title": "-v tells what is done and changes nothing", "statement": "Adding -v to a command line changes neither the exit status, nor any file or command, nor the standard error output. Without -v a compilation prints nothing on the standard output. With -v it prints 'blang: compiling N file(s)', then for each input in order 'processing', 'generated' and 'running' lines with the documented names of outputs, temporary files and commands, and for executables the link command and the output; each command is announced immediately before it runs. If the compilation fails only the beginning of these lines is printed, never all of them.", "quantifier": "every command line, file system, behaviour of the system and of clang", "why_tests_cant": "the combinations of modes, files and failing operations cannot be enumerated; the tests never look at the output of -v", "anchors": ["driver.go:Compile", "driver.go:compileToIR", "driver.go:compileToAssembly", "driver.go:compileToObject", "driver.go:compileToExecutable", "main.go:main"]}
{"id": "C89", "title": "Every failure is reported with its true cause", "statement": "A compilation that succeeds prints nothing on the standard error output. One that fails ends with a line 'blang: error: <description>' where the description is one of a fixed list and true: the extension is not allowed, the file cannot be accessed, the mode does not take the file, -o is given with several files, the operation named failed, the compiler rejects the named source text as it was at the beginning with this message, clang failed on a documented command. If the system does its work, the message of the compiler about a source file is all that is printed.", "quantifier": "every command line, file system, behaviour of the system and of clang", "why_tests_cant": "each operation can fail at each point of each run; the tests provoke a handful of failures and hardly ever compare the text", "anchors": ["driver.go:compileToIR", "driver.go:compileToAssembly", "driver.go:compileToObject", "driver.go:compileToExecutable", "main.go:main", "options.go:Eprintf"]}
{"id": "C90", "title": "The names of local variables and labels do not matter", "statement": "Two programs that differ only in the names of parameters, automatic variables and labels (names that are called are names of functions and stay) are both accepted or both rejected. If they are accepted their code is the same except for the names of blocks and of the parameter, each function gives the same results with the same effects for every behaviour of the functions outside the file, and runs for ever in the same cases.", "quantifier": "every pair of source texts that differ in this way", "why_tests_cant": "renamings are endless and a wrong one shows only where two names meet: a variable that shadows another, a label with the name of a variable, a local variable with the name of a function", "anchors": ["irbuilder.go:GetAddress", "irbuilder.go:DeclareLocal", "irbuilder.go:DeclareLocalArray", "irbuilder.go:StartFunction", "irbuilder.go:GetOrCreateLabel", "parser_stmt.go:parseAuto", "expressions.go:parsePrimary"]}
{"id": "C91", "title": "The code is in proportion to the text", "statement": "The code the compiler makes for an accepted text, counted in instructions and their operands, terminators and the values of switches, blocks, functions and parameters, variables, initial words and characters of strings, is at most eight times the number of characters of the text, plus one for each word of a vector with initial values. So no expression is generated twice and no construct nested in itself makes the code explode.", "quantifier": "every text that is accepted, every tree it can be read as", "why_tests_cant": "a construct that copies its operand shows only if it is nested often enough, in one of endlessly many combinations; tests look at small programs and at what they print, not at the size of the code", "anchors": ["irbuilder.go:DeclareGlobalArray", "irbuilder.go:DeclareLocalArray", "irbuilder.go:StartFunction", "expressions.go:parseExpressionWithLevel", "expressions.go:parsePostfix", "parser_stmt.go:parseSwitch", "parser_stmt.go:parseAuto"]}
{"id": "C92", "title": "The order of the definitions of a file does not matter", "statement": "If no name is defined twice in a file, and none is a function and a variable of the file, then writing the definitions in any other order gives a file that is accepted as well, and in which no name is both either. Each function gives the same results for the same arguments, memory and surroundings, has the same effects in the same order, and runs for ever in the same cases, wherever the text does nothing undefined; only the string literals get other symbols. Calls to functions defined later and external references to variables defined later or earlier are treated alike. Without the provisos the claim is false: extrn f before the function f is accepted and after it refused, and of two definitions of a name the last one counts.", "quantifier": "for all texts and trees of programs, all permutations of the definitions, all machines, functions, arguments, memories and outside worlds", "why_tests_cant": "there are n! orders of n definitions, and a table entry left over from one definition shows only if the next one happens to use the same name", "anchors": ["parser_decls.go:ParseDeclarations", "irbuilder.go:DeclareFunction", "irbuilder.go:GetOrDeclareFunction", "irbuilder.go:ClearTopLevelContext", "irbuilder.go:CreateStringConstant", "parser_stmt.go:parseExtrn"]}
{"id": "C93", "title": "Every message is valid UTF-8; the words, numerals and characters used by the claims are what they should be", "statement": "Whatever the bytes of the source text are, a message of the compiler is a sequence of well-formed UTF-8 characters (RFC 3629: no overlong forms, no surrogates); a quoted character is the UTF-8 form of the rune with its number. The numbers in names and messages are decimal numerals without superfluous zeros, with a minus sign for negative numbers. The 64-bit word of an integer is the only number from -2^63 to 2^63-1 that is congruent to it modulo 2^64.", "quantifier": "for all source texts over all 256 bytes, with and without a failing reader; for all integers and characters", "why_tests_cant": "messages quote characters of the text, and tests quote only ASCII; a message cut in the middle of a character shows only with other texts", "anchors": ["lexer.go:Identifier", "lexer.go:ExpectChar", "lexer.go:Escape", "expressions.go:parsePrimary", "parser_stmt.go:parseAuto", "parser_stmt.go:parseExtrn", "irbuilder.go:CreateStringConstant"]}
{"id": "C94", "title": "Definitions added at the end of a file leave the code before them unchanged", "statement": "The first definitions of an accepted file are an accepted file by themselves. Adding definitions at the end leaves the code of every function before them as it is, to the last instruction and label, unless the name is defined again; no other function gets a body. The objects of the variables that are not defined again stay the same and are the only ones with their symbols; the string literals keep their symbols and contents.", "quantifier": "for all texts and trees of programs, all lists of added definitions, all functions, variables and literals", "why_tests_cant": "a definition that reaches back (a label counter, a table of functions or of literals shared with it) changes only some functions of some files, and tests compare output, not code", "anchors": ["parser_decls.go:ParseDeclarations", "irbuilder.go:DeclareFunction", "irbuilder.go:removeFuncByName", "irbuilder.go:removeGlobalByName", "irbuilder.go:CreateStringConstant", "irbuilder.go:getOrCreateFunc"]}
{"id": "C95", "title": "Superfluous parentheses change nothing", "statement": "Adding parentheses, any number and anywhere around an expression of which only the value is used, to an accepted program gives an accepted program with the very same module: writing out the grouping that the precedence of the operators gives changes not a single instruction. Taking such parentheses away gives the same module or none: a name that is not declared is rejected before == and accepted in parentheses. Around the target of an assignment, what is stepped or has its address taken, and around the name of a called function, parentheses do count.", "quantifier": "for all texts and trees of programs and all ways of adding parentheses", "why_tests_cant": "there are endlessly many places for parentheses, and a group that loses its lvalue too early or loads twice shows only with some operators around it", "anchors": ["expressions.go:parsePrimary", "expressions.go:parsePostfix", "expressions.go:parseUnary", "expressions.go:parseExpressionWithLevel"]}
{"id": "C96", "title": "Braces, empty statements and lists of declarations change nothing", "statement": "Two programs that differ only in braces around statements, in nested blocks, in empty statements, in an empty else, in whether names are declared (auto, extrn) in one statement or in several, or in whether a label or case stands before a block or before the first statement in it, are given the very same module, or are rejected with the very same message. A block is no scope: a variable declared in it belongs to the whole function.", "quantifier": "for all texts and trees of programs, accepted or not", "why_tests_cant": "the combinations of nested blocks, labels, cases and empty statements are endless; a jump too many or a block without end shows only in some of them", "anchors": ["parser_stmt.go:parseStatementWithSwitch", "parser_stmt.go:parseAuto", "parser_stmt.go:parseExtrn", "parser_stmt.go:parseIf", "parser_stmt.go:parseSwitch", "parser_stmt.go:parseCase"]}
{"id": "C97", "title": "Ways of writing that mean the same", "statement": "Rewriting a program by the usual laws of B, anywhere and any number of times, does not change what its functions do: a[i] for *(a+8*i), &a[i] for a+8*i, &*e for e, *&a for the lvalue a, ++a for a=+1, x=op e for x = x op e, a<b for b>a, a+b for b+a and a*(b+c) for a*b+a*c where the operands have no assignments, calls or literals, (a+b)+c for a+(b+c) with any operands, a-b for a+-b, a<<3 for a*8, !e for e==0, -e for 0-e, !(a<b) for a>=b, if(e!=0) for if(e) and so for while and ?:, !e?a:b for e?b:a, an operation on constants for its result, a condition that is constant for the branch taken, e?a:b; for if(e) a; else b;, x++; for ++x;, return; for return(0);. Two laws one may expect are false: &a[i] is not a+i, as only brackets count in words, and x =op e is not x = x op e when e changes x, as the old value is read last.", "quantifier": "for all texts and trees of programs, all machines, arguments and states, results and infinite runs", "why_tests_cant": "each law has endlessly many contexts; a wrong order of loads or a missing scaling shows only where operands have effects", "anchors": ["expressions.go:parsePostfix", "expressions.go:parseUnary", "expressions.go:parsePrimary", "expressions.go:parseExpressionWithLevel", "parser_stmt.go:parseReturn", "parser_stmt.go:parseIf"]}
{"id": "C98", "title": "Functions that assign only to their own variables change nothing else", "statement": "If the functions of a file assign to and step only parameters and automatic variables, named directly, and the functions they call outside the file are harmless, then every call, however deep the recursion and whatever the loops and jumps, leaves every word that existed before it as it was, and the outside world changes only as those outside functions allow. Assigning an external variable or through a pointer does change words of others.", "quantifier": "for all texts and trees of programs, all machines with sound allocation, arguments, memories and worlds, and every preorder on worlds", "why_tests_cant": "storage of parameters and automatic variables that overlaps something else, or a store to the address of a variable of another call, corrupts memory that a test may never look at", "anchors": ["irbuilder.go:DeclareLocal", "irbuilder.go:StartFunction", "expressions.go:parseExpressionWithLevel", "expressions.go:parsePostfix", "expressions.go:parseUnary"]}
{"id": "C99", "title": "Programs without loops, jumps and recursion end", "statement": "The code compiled for a file without while and goto, in which functions are called by name and none directly or indirectly calls itself, ends on every call, with a result or by exit; it never runs for ever, unless the text does something undefined on the way.", "quantifier": "for all texts and trees of programs, all machines, functions, arguments, memories and worlds", "why_tests_cant": "a branch of an if or switch to a wrong block makes a loop only for some conditions; that something ends for all inputs cannot be tested", "anchors": ["parser_stmt.go:parseIf", "parser_stmt.go:parseSwitch", "parser_stmt.go:parseCase", "expressions.go:parseExpressionWithLevel", "irbuilder.go:StartFunction"]}
