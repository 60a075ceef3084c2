# DESIGN: a machine-checked model of blang

Source: `/repo` (sergev/blang, Go compiler for B plus a small C runtime), read as
text only. Everything below is about the model in `rocq/theories`; the Go and C
code is never built or run.

## 1. What is modelled

| model file | models | how |
|---|---|---|
| `Base.v` | Go/LLVM primitives | bytes are Coq `ascii`; `unicode.IsSpace/IsLetter/IsDigit` on Latin-1; `string([]rune)` (UTF-8); `int64` as `Z` with explicit wrap; `fmt` `%d` |
| `Lexer.v` | `lexer.go` | one function per Go method; the input is a byte list plus a flag telling whether reading ends in EOF or in an I/O error |
| `LexerBuf.v` | `ReadChar`/`UnreadChar`/`ReadRune` | the literal two-part state (push-back stack, reader); refined to the single stream of `Lexer.v` |
| `IR.v` | the part of llir used | values, instructions, terminators, blocks, functions, globals, module |
| `Builder.v` | `irbuilder.go` | state monad over (lexer, compiler); errors are values |
| `Expr.v` | `expressions.go` | one function per Go function; loops and recursion on fuel |
| `Stmt.v` | `parser_stmt.go` | same |
| `Decl.v` | `parser_decls.go` | same |
| `IRSem.v` | meaning of the emitted LLVM IR | small steps without bounds over byte memory; `icall` is the big-step call relation, `busy n` a call that can make n steps |
| `Driver.v` | `driver.go`, `main.go` | file system as a map, clang as an oracle; produces the final file system and the list of effects |
| `Cmdline.v` | the options of `main.go`, `pflag.Parse` | from the words of argv to the flags; pflag 1.0.10 is not in /repo, its published algorithm is trusted; CSV values with quotes are left to an arbitrary reader |
| `Ld.v` | the link step of `driver.go:286-388`, the symbols of `runtime/*.c` (`runtime/Makefile:7-19`, `runtime/runtime.h`) and of modules | the linker is not in /repo, its rule for objects and one archive is trusted; Linux; further libraries (-l) and references added by LLVM's code generator (memset and the like) are left out |
| `Files.v` | what the link step makes of several modules (`driver.go:296-361`) | private symbols (string constants) of each module are kept apart, all others are shared; trusted |
| `Runtime.v` | `runtime/*.c` | functions over byte memory and I/O |
| `Process.v` | `runtime/start.c`, the library linked to a program | the functions of `Runtime.v` as the outside functions of `IRSem.v` |
| `DriverOut.v` | `driver.go`, `main.go` once more, with `fmt.Printf` and `Eprintf` | texts of system errors, the usage text and the text of pflag's errors are oracles; colours left out |
| `Syscall.v` | `runtime/x86_64.h`, `runtime/aarch64.h`, `runtime/riscv64.h` | an asm statement is what it declares to the compiler; the kernel conventions are a table |

Specifications (independent of the model):

| file | says |
|---|---|
| `SpecLex.v` | values of literals, layout, identifiers |
| `SpecText.v` | the grammar: all texts of a program tree |
| `SpecAccept.v` | the grammar with the liberties the compiler takes, marked (L1)-(L8): all accepted texts |
| `SpecStatic.v`, `SpecTree.v`, `SpecOcc.v` | scope rules; what occurs in a tree |
| `SpecIR.v` | well-formed LLVM functions and modules |
| `SpecValid.v` | rules of LLVM on types, phi instructions, switches, calls, assignment before use, initial values; all rules together |
| `SpecSure.v` | criterion: automatic variables are declared before they are used on every way through a function |
| `SpecSem.v` | reference semantics of B trees (functions with a bound; reaching it, `Limit`, is told apart from undefined behaviour, `Stuck`) |
| `SpecRun.v` | the statements again, as rules without bounds |
| `SpecLink.v` | how names of the program and symbols of the module correspond; side conditions of the simulation |
| `SpecRt.v` | numerals, packed characters, printf formats |
| `SpecDriver.v` | path names, outputs |
| `SpecCmd.v` | command lines: files, options and their spellings |
| `SpecFiles.v` | several files as one text: numbering of literals, addresses |
| `Cells.v` | a logic of separate one-word cells over the reference semantics, for C84 |
| `SpecMsg.v` | the error message for a program that breaks a scope rule; what must be wrong for each message |
| `SpecOrder.v` | what stays the same when definitions are written in another order |
| `SpecUtf.v` | well-formed UTF-8 (RFC 3629) |
| `SpecParen.v`, `SpecBrace.v` | where parentheses, braces and empty statements may be added |
| `SpecLaws.v` | laws between expressions, lvalues and statements that mean the same |
| `SpecOwn.v` | functions that assign only to their own variables; harmless results |
| `SpecCalm.v` | programs without loops, jumps and recursion |
| `SpecSize.v` | the size of modules, the words of vectors with initial values |
| `SpecAlpha.v` | programs that differ only in local names; modules with the same code |
| `SpecOut.v` | the lines -v prints; the list of complaints with their causes |
| `SpecDiag.v` | the list of all messages with what they quote; which of them are final |
| `SpecStages.v` | when clang is right at each step; sequences of commands |
| `SpecTool.v` | when clang has linked modules correctly; behaviour of executable files |
| `SpecLd.v` | which members of an archive are needed, which objects can be linked with the library |

`Syntax.v` has the trees and, for each tree, the actions of the generator; the
trees are the syntax all specifications speak about. Proofs are in the other
files; the property theorems are in `Props*.v`, each with `Print Assumptions`
and a concrete instance.

## 2. Shape of the proofs

* Lexer: characterisation of each scanning function on every input.
* Totality: every parser function, run with fuel larger than the remaining input,
  does not run out of fuel; the model of the entry point passes that much fuel.
* Invariants (names, blocks, registers, symbols): a step relation on compiler
  states closed under the builder primitives; every parser function is shown to
  move along it; every input that is accepted therefore satisfies the invariant.
* Syntax: `renders` relates a syntax tree to all its concrete texts (any layout).
  The one-pass compiler run on a rendering does exactly what a structural code
  generator does on the tree. Precedence and layout independence follow. Conversely
  whatever the parser accepts is a rendering of a tree, and the code is that of the
  tree.
* Semantics: the code of the structural generator simulates the B semantics of the
  tree in the IR interpreter (forward simulation; the interpreter is deterministic).
* Driver: case analysis over the per-file loop, induction over the input list,
  arbitrary oracle for clang and for each compilation.
* Runtime: induction over digits / bytes.

Properties that are false of the code get a `..._refuted` theorem with a concrete
witness, and the largest true part is proved under a name ending in `_partial`.

## 3. Plan per property

* **C01** `Lexer.Number` vs. positional value of the digit run; induction on digits.
* **C02** `Lexer.Character` vs. big-endian value; both acceptance and rejection.
* **C03** `Lexer.Escape` vs. the table; exhaustive over the byte and lifted to literals.
* **C04** `Lexer.String` + `CreateStringConstant`; 7-bit contents proved; bytes >= 0x80 refuted.
* **C05** inductive `layout`; `Whitespace` consumes exactly the maximal layout prefix.
* **C06** `Identifier` vs. maximal span.
* **C07** refinement of the two-part buffer to a stream, all histories.
* **C08** fuel sufficiency for every parser function, every input.
* **C09** no parser function returns success with the failing end reached; every top-level success reads EOF.
* **C10** render theorem for expressions; `a < b << c` refutes the full table.
* **C11** corollary of the render theorem for programs; exceptions (`f( )`, `else{`, `=/*`) as refutations.
* **C12** success part of the render theorem.
* **C13** for every operand, the operators fail when the operand is not an lvalue.
* **C14** invariant on the symbol tables + rejection in `parsePrimary`.
* **C15** `parseAuto` on an arbitrary declaration list.
* **C16** `parseCase` outside a switch; structure of the recursion.
* **C17** symbol tables after each top-level definition are empty; StartFunction makes exactly the parameters visible.
* **C18** `parseExtrn` in an arbitrary state + reachable-state invariant; order dependence refuted.
* **C19** invariant on module functions / globals.
* **C20** injectivity and disjointness of the name mapping.
* **C21** invariant; refuted in full (function/variable clash, vector redefinition), proved for the rest.
* **C22** invariant over builder steps; the single exception (`entry`) refuted.
* **C23** invariant over builder steps; undefined labels refuted.
* **C24** invariant over builder steps.
* **C25** simulation of expressions.
* **C26** instance of the expression simulation, stated on its own.
* **C27** instance of the expression simulation, stated on its own.
* **C28** instance of the expression simulation, stated on its own.
* **C29** statement simulation.
* **C30** statement simulation with continuations and find_label.
* **C31** statement simulation.
* **C32** statement simulation; code after return refuted.
* **C33** execution of the entry code of StartFunction for arbitrary lists.
* **C34** execution of the code of DeclareLocal / DeclareLocalArray.
* **C35** module contents after the declaration and the memory image it loads to.
* **C36** composition of the render theorem and the simulations, induction on call depth.
* **C37** resolution in call position; autos/parameters refuted.
* **C38** all words; spec by big-endian bytes.
* **C39** composition of C02 and C38.
* **C40** spec: the standard library's decimal numeral.
* **C41** spec: positional octal numeral.
* **C42** format interpreter vs. independent grammar of formats; most negative %d and non-ASCII text refuted.
* **C43** byte memory laws.
* **C44** all inputs.
* **C45** bounds carried in the buffer model.
* **C46** composition with C36 and start.c.
* **C47** naming functions vs. a declarative spec of base and extension.
* **C48** driver model, arbitrary file system.
* **C49** driver/main model.
* **C50** driver model; induction over inputs; the leak on an unsupported extension through the API is refuted.
* **C51** driver model.
* **C52** driver model, order of the argument list.
* **C53** driver model with arbitrary compile results.
* **C54** main model.
* **C55** driver model.
* **C56** refuted (temporary names are not checked); proved when the names are distinct.
* **C57** refuted (equal base names); proved when the names are distinct.
* **C58** refuted: extrn emits a definition.
* **C59** refuted (`else{`, `else;`); proved when a white-space byte follows.
* **C60** refuted (`_x`, leading digit, non-ASCII letters); proved for ASCII names starting with a letter.
* **C61** invariant over builder steps.
* **C62** order of the literals in the text vs. numbering of the constants; memory image.
* **C63** composition of C36, C62 and C42 through the library as outside functions.
* **C64** the simulation counts steps: reaching the bound n in the source forces n steps of the code; determinism excludes an end.
* **C65** invariant over builder steps.
* **C66** invariant over builder steps: edges into the blocks not yet finished.
* **C67** refuted (equal cases); invariant over builder steps otherwise.
* **C68** refuted (no arguments); invariant over builder steps otherwise.
* **C69** refuted (auto inside an if); for programs meeting the criterion of `SpecSure.v`: an invariant that gives each block a set of registers assigned on every edge into it, induction over statements, then over paths.
* **C70** addresses: invariant over definitions; lengths refuted for sizes of 2^63 and more, otherwise by computation of the objects.
* **C71** composition of C21-C24, C61, C65-C70.
* **C72** weakest-precondition rules for the parser over what is left of the input: each parser function consumes a text of the tree whose code it generates (ParseText.v, ParseTextS.v); the other direction is C12.
* **C73** C72 with C36, C64 and C71.
* **C74** the reader of options follows an inductive grammar of command lines, both ways; induction over the words.
* **C75** corollary of C74 for the defaults; the level refuted by a run of the driver model.
* **C76** corollary of C74; the exit status refuted.
* **C77** corollary of C74; commas refuted.
* **C78** the linker takes members until nothing wanted is left: its result is the least set closed under references (invariant on the members taken); the symbols of a module from the invariants of the generator; the clash of writeb.o refuted.
* **C92** The static checks of a definition depend on the earlier ones only through the names known; by induction over the list, with functions and variables disjoint, every selection in every order is accepted. The meaning of a call looks a definition up by name, and a body depends on its position only through the numbers of its literals; a shift of the numbers is a bisimulation (SemShift). The code follows the text in both orders by C64.
* **C93** Messages: cases of the catalogue of C87; a concatenation of valid texts is valid. Numerals: induction over the decimal digits of the standard library. Words: arithmetic modulo 2^64.
* **C94** The state after the first definitions is a state of the longer compilation, and each further definition keeps the functions, variables and literals of other names (the lemmas of C19, InvSym.v); what it adds is its own function and declarations without body (Built.v).
* **C95** Simulation of the generator on trees: where the generator succeeds on the tree with fewer parentheses it does the same actions on the one with more (ParenFacts.v); a group loads its value and is no lvalue, which is what every use of a value does.
* **C96** The generator does the same actions for both sides of each law (BraceFacts.v); it never runs out of fuel, so that texts are rejected exactly with the message of the generator.
* **C97** Each law is an equality of actions of the semantics of trees (LawFacts.v), closed under all contexts by induction on the congruence; C64 carries it to the modules of both texts.
* **C98** Invariant of the semantics of trees (OwnFacts.v): the words of the memory at the call are kept and the storage of all variables in scope is apart from them; C64 carries it to the module.
* **C99** Induction on the rank: with bound rank + 2 the semantics of trees reaches no bound (CalmFacts.v); C64 carries it to the module.
* **C91** Trees are given weights (a node one or two, strings their length). By induction over the tree the generator adds at most eight things for each unit of weight; the accounting hands on what a result still pays for (the arguments of a call, the values of a switch). By induction over the grammar the weight is at most the length of the text.
* **C90** The generator is run on both trees side by side; an invariant relates the two states: the local variables have the same addresses in the same places, the labels the same blocks, and the code so far is the same. By induction over the pair of trees every step keeps it. The machine of IRSem.v then takes the same steps in both modules.
* **C88** Two runs of the driver side by side, with and without -v, related function by function; the lines printed by a function are a list determined by its arguments, of which a failing run prints a proper prefix (OutFacts.v, OutNarr.v).
* **C89** Each function of the driver, started while the source files are as at the beginning, prints nothing on success and fails with a listed complaint; sources stay unchanged until all are read, because everything written before has another extension (OutErr.v).
* **C87** An invariant of the parser: what is in the lexer is quotable, and errors are listed (DiagFacts.v). Finality: two runs of the parser, on a text and on an extension of it, agree until the first has seen the end; from then on it gives only messages that are not final (Final*.v).
* **C86** The generator yields the message computed on trees (SpecMsg.v), by induction on the tree with the name environment as invariant; a second induction shows that each message has its cause in the tree; text and tree agree in errors, too (Render.v).
* **C85** asm statements as what they declare to the compiler, kernel conventions as a table; computation for each target; on macOS refuted.
* **C84** a small logic of separate one-word cells (Cells.v) over the reference semantics; loop invariants and induction over the number of turns; for e-2.b the invariant that the vector holds the mixed-radix digits of the remainder. The compiled text is tied to the tree by computing the compiler once on the exact file.
* **C83** the specification of the clang commands (DriverFacts.v) extended to what clang finds in each input (DriverStages.v); induction over the sequence of commands; the end as for C81.
* **C82** the C functions of C38-C45 on the memory of the program: each function by computation and the lemma about its loop; C82_copy by induction over the input with the rules of C29.
* **C81** C74 gives the flags, the analysis of the driver the one clang command with the texts of all modules, the hypothesis on clang the code, C80 its behaviour.
* **C80** the linked code is a renaming of the code in which one file keeps its names, so each call runs as in C36 on a machine with renamed symbols (simulation both ways, also for running on); the meaning of a body only depends on the addresses of its own literals (shift lemma by induction on trees); induction on the bound of the reference semantics across files.
* **C79** both modules define the symbol (C58), so the result cannot be without duplicates.

## 4. The model against the repository's own tests

The code cannot be run here, so the model is compared with what its authors expect
of it. `Exec.v` is an interpreter of the generated code (memory and registers in
search trees) with a proof that what it computes is what the machine of `IRSem.v`,
linked with the library of `Process.v`, does (`ecall_sound`). `Suite.v` runs the test
programs of `lang_expr_test.go`, `lang_prog_test.go` and `examples_test.go` with it and
compares the output; it compiles the texts of `driver_test.go` and `parser_test.go`
and compares the errors; and it has the cases of `lexer_test.go`. `SelfTest.v` does
`TestPDP7CompilerB`: the model compiles `examples/b.b`, and the result, run on its own
source, writes the 15160 bytes of `examples/b.pdp7`. All agree. Not run: `e-2.b` (too
many steps; C84 proves its output instead), and the tests of the command line, which
are covered by the theorems on the driver. These checks are tests of the model, not
proofs of properties; no claim in MANIFEST.json rests on them.

## 5. Trusted base

* Coq 8.16.1's kernel (and `vm_compute` in examples).
* `Print Assumptions` prints "Closed under the global context" for every theorem
  named in MANIFEST.json; no axiom of the standard library is used.
* The reading of Go and C semantics made in the model comments.
* The reading of LLVM IR made in `IRSem.v`: words are 64-bit two's complement;
  division by zero, oversized shifts, loads of bytes never written, misaligned or
  out-of-object accesses have no step (so theorems with a "reference semantics is
  defined" hypothesis exclude them); a call passes its arguments as a list of words
  whatever the function type at the call site (as the compiler relies on); the
  va_list object is part of the frame; `alloca` gets an address from an arbitrary
  oracle and its memory is released at return.
* Hypotheses of the semantic theorems, all about the environment and all met in the
  examples: `linked` (symbols resolve to the objects they name, the outside
  functions are the same for code and reference semantics), `separate` and `sane`
  (no two objects overlap; new objects do not overlap old ones), `loaded` (the
  loader has put the initial values of the module into memory), `low` (addresses
  below 2^62).
* Not modelled: llir's printer (a module is taken as its structure; its panic on a
  block without terminator is modelled; the pointee types it prints are not, which
  LLVM ignores since pointers are opaque), clang/LLVM/ld themselves, the Go runtime
  (stack exhaustion, out of memory), file permissions, concurrent changes of the file system,
  that the kernel may take only a part of the bytes written (`b_write` is a list of effects; no
  function of the library looks at the result of a write).
