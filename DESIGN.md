# A machine-checked model of goodpaul6/Tiny in Coq 8.16.1

## 1. Approach

The C sources under `/repo/tiny` are modelled function by function as executable
Gallina.  Every definition cites the file and lines it models and says where it
simplifies.  Results are explicit about everything C can do:

* `outcome A := Ok a | Abort | UB | Fuel` (Base.v) for run-time code.
  `Abort` is a failing `assert` or `exit`; `UB` is undefined behaviour in C
  (out-of-bounds access, indeterminate value, signed overflow, bad shift, use
  after free, NULL); `Fuel` means the step bound of a fuelled recursion ran out,
  the model's stand-in for non-termination, never counted as success.
* `cres := COk a s | CFail s | CAbort | CUB | CHang | CFuel` (Symbols.v) for the
  compiler: `CFail` is a reported compile error (longjmp) and keeps the state it
  leaves behind, `CHang` is the lexer's endless loop on an unclosed string.

`UB` is never assumed away: theorems either prove that it cannot occur, or name
the precondition under which it cannot.  Where the English property is false of
the code, a `_refuted` theorem exhibits the failing input; the property is then
proved with the precondition that excludes it.

Specifications (`*Spec.v`, `Source.v`) are separate from the model: lists, finite
maps, positions, reachability, an interpreter of the syntax tree.  Proofs are in
the other files; `Props_*.v` hold the theorems named in MANIFEST.json, each
followed by `Print Assumptions` and an example that meets its hypotheses.

Platform: LP64, little endian, two's complement, `int` 32 bits, `Tiny_Int` 64
bits, `double` IEEE-754 binary64 (Float64.v, on bit patterns), `char` signed,
"C" locale, allocation never fails.

## 2. Properties: model and technique

| id | model | specification | technique | theorems in |
|----|-------|---------------|-----------|-------------|
| C01, C02 | Array.v: stretchy buffer with count, capacity, unwritten cells | ArraySpec.v: a list | refinement over every history; growth of C02 refuted | Props_Data |
| C03, C04 | Dict.v: open addressing, growth, removal by re-insertion, hash | DictSpec.v: finite map | probe-chain invariant, refinement over histories | Props_Data |
| C05 | Values.v `Tiny_AreValuesEqual` | ValuesSpec.v | case analysis | Props_Data |
| C06 | Arena.v | ArenaSpec.v | invariant over request histories | Props_Text |
| C07 | Strings.v | ValuesSpec.v | invariant over histories | Props_Text |
| C08, C09 | Pos.v, ErrFmt.v (byte buffer) | ErrFmtSpec.v | counting; "buffer = terminated prefix" invariant | Props_Text |
| C10–C13 | Lexer.v, LexerC.v (memory accesses) | LexerSpec.v | refinement C level → text level → pending text; measure; round trip | Props_Text |
| C14 | Parser.v | Grammar.v | completeness by induction on spellings, soundness by induction on the recursion (GrammarProofs, GrammarSound) | Props_Grammar |
| C15 | Parser.v | ParserSpec.v | measure on remaining tokens (Stream, ParserTotal) | Props_Parser |
| C16 | Code.v: GEN_VALUE / READ_VALUE_AT on bytes | CodeSpec.v | alignment arithmetic, little-endian codec | Props_VM |
| C17–C21 | Parser.v, Resolve.v, Compile.v, VM.v, Host.v | Source.v: direct interpreter | code layout invariant (Layout*.v), forward simulation (Sim*.v), invariants of every reachable compiler state (TableInv, ParserInv, ResolveInv, HostInv, Whole) | Props_Compile |
| C22–C24 | Heap.v, VM.v | GCSpec.v, GCTransSpec.v | mark correctness on acyclic graphs, divergence on cycles, simulation modulo garbage | Props_VM, Props_GC |
| C25 | Resolve.v, Compile.v, VM.v | TypeSpec.v (`operands_ok`, `has`, `typed_thread`, `polite_host`, `static_s`) | types of variables only ever become known (TagTable, TagParse, TagResolve, TagWhole), so every compiled statement stays well typed; a typing of the stack at every address by induction over the layout (TypeCode); invariant over cycles, calls and callbacks (TypeVM) | Props_Types |
| C26 | Parser.v, Symbols.v | Scope.v (environments, `lookup`, `scoped`) | invariant `agrees` between the symbol table and the environment, by induction on the parser (ScopeProofs.v) | Props_Scope |
| C27 | FileLine.v | FileLineSpec.v | search over sorted tables | Props_VM |
| C28 | Compile.v `Tiny_CompileString` with rollback | Source.v, VMSpec.v, `still`, `moves` | invariants kept by every step that may fail (FailTable, FailCode), simulation between two states | Props_Fail |
| C29 | Compile.v `Tiny_CompileString` | Source.v, VMSpec.v | preorder invariants, simulation between two states | Props_Driver |
| C30 | Disasm.v | VMSpec.v | case analysis on opcodes | Props_VM |
| C31, C32, C33, C34 | VM.v | VMSpec.v | determinism, commutation, arithmetic, heap lemmas | Props_VM |
| C35 | VM.v, Compile.v | HeightSpec.v (`pops`, `pushes`, `succs`, `heights`, `stack_ok`) | height assignment built by induction over the layout of each expression and statement (HeightProofs.v); invariant over cycles (frames included) | Props_Height, Props_VM |
| C36, C38 | Std.v (memory accesses, buffers) | StdSpec.v | induction over strings, formats, values | Props_Std |
| C39 | Parser.v | GrammarStmt.v (`sentence`, `program`) | soundness by induction on the recursion, completeness by induction on the spelling (GrammarStmtSound, GrammarStmtComplete) | Props_Stmt |
| C40 | Compile.v, VM.v | HeightSpec.v (`foreign_takes`), `called_as_bound` | arity in the code layout, invariant over cycles as for C35 | Props_Height |
| C41 | Host.v lookups, Symbols.v, Compile.v | statement itself, Source.v | uniqueness of numbers in every reachable table | Props_Names |
| C42 | Resolve.v (the checker as a function) | Typing.v (typing rules as inductive relations, independent of Resolve.v) | structural induction on trees; chains of nullables are repetition-free, so the recursion of IsTagAssignableTo ends within the table | Props_Typing |
| C43 | Parser.v, Resolve.v, Compile.v | GrammarStmt.v, Typing.v, Accept.v (what else a typed program needs) | the code generator's outcome is characterised by structural induction (`out`: succeeds iff fine, otherwise reports an error) with an invariant on the table's shape; variables are covered by their declarations through the grammar derivation | Props_Accept |
| C44 | StdBox.v (array and dict functions of std.c as foreign functions, containers in the host's memory) | StdBoxSpec.v: lists, finite maps, `answers`, `faithful_to` | simulation relation between the host's memory and a list of lists and maps, one lemma per function over the data-structure theorems of C01-C05 | Props_Box |
| C45 | StdBox.v, VM.v | GCTransSpec.v (`respects`, `same_but_garbage`, `no_dangling`) | every library function passes the collector's discipline for every memory, then C24; the functions that do not (reads from primitive arrays, growing resize) are cut off in a stricter library, which the code refines | Props_Box |
| C46 | Host.v, Lexer.v, Symbols.v, Compile.v, Source.v | BindSpec.v: the grammar of signatures; Typing.v, Scope.v, Source.v for what programs see | soundness and completeness of the signature reader against the grammar; every symbol keeps what matters in every later state | Props_Bind |
| C47 | Parser.v, Resolve.v, Compile.v, Host.v | Answer.v: declarations that do not mention themselves; Props_Parser (C15), Props_Accept (C43) for the other hypotheses | an invariant of the symbol table (every type mentioned is a type, optionals are not nested, only variables not yet checked lack a type) kept by parsing, type checking, code generation and every host call; totality of the type checker under it; C15 and C43 for the rest | Props_Answer |
| C48 | StdBind.v (std.c:851-971), Host.v | LibrarySpec.v: tables of the functions with names, types and which of the library's functions they are; Typing.v for what programs see | texts written as signatures are lexed and parsed back to the table's rows (SigText.v), names stay bound under later host calls and compiles (C46) | Props_Library |
| C49 | StdBind.v (std.c:973-997, 1175-1228), Host.v | LibrarySpec.v: the tables `standard_library`, `io_library`, `i64_library` of names, types and C functions, and `free` (the name is not taken) | a library is a script of host operations (LibScript.v); each step works exactly when its name is free, frees no other, and what it bound stays visible under later host calls and compiles (C46) | Props_Libraries |
| C50 | I64.v (std.c:736-769) | `i64_number`: which number an i64 value stands for; `overflows`: a partial result is out of range | the bits of a pointer are the number in two's complement; induction over the arguments | Props_I64 |
| C51 | I64.v (std.c:1107-1119), Host.v | the call of the function by name in Source.v | call_by_name (C41) under the call back of `call_function` | Props_Indirect |
| C52 | Parser.v, Compile.v (`run_uses`, `compile_body`), StdBind.v (the array macro) | Props_Uses.v: `uses` (macros in order), `own_structs_defined` (by identifier, not by position), GrammarStmt.v, Typing.v, Accept.v | C43 again after the macros: a macro that makes host bindings keeps the parsed symbols (`grew`), so the slices of `Tiny_CompileString` are the symbols the source declares | Props_Uses |
| C53 | Parser.v, Resolve.v, Compile.v, Host.v | Props_UsesAnswer.v: `made` (what is made with `new`), `macros_answer`, `macros_sound`; Answer.v | C47's invariant across the macros: host calls keep it, and change the table only by adding and by turning a pending structure into a host type (`later`), under which all the parser has left stays checkable | Props_UsesAnswer |
| C54 | Reflect.v (find_const_symbol, find_type_symbol, get_string) | Props_Reflect.v: `consts_of` (the constants of a tree, read off the syntax), `program_with` (C39's grammar with the names of the structures), `literal` | the table only gains symbols and keeps those it has (`stay`), through every parser step, resolve pass and rollback; declared names are found because the parser adds them and nothing later hides them | Props_Reflect |
| C55 | Files.v (std.c:76-181 and the C streams under them) | Props_Files.v: `file` (the bytes of a file), `open_as`, `writes`/`reads` (histories of calls with anything in between), `elsewhere` | the file's bytes and the place are an invariant of the history; other calls keep it (`other_calls_elsewhere`, by cases on the functions) | Props_Files |
| C56 | CompileFile.v (tiny.c:4083-4114), Files.v | C43's `acceptable`, C09's `printed`, Props_Files.v: `file` | opening and reading by Files.v, then C43 and C47; the message by C09's snprintf invariant | Props_CompileFile |
| C57 | Std.v `strtol`, `std_stoi` (std.c:514-521) | Props_Stoi.v: `leading_digits`, `numeral`, `means` | every text splits into blanks, sign, prefix, digits and rest; the model's loops follow the split | Props_Stoi |
| C37 | VM.v with a log | LifeSpec.v | invariant over histories, erasure of the log | Props_Life |

## 3. Modelled and not modelled

Modelled: `array.c`, `dict.c`, `stretchy_buffer.h` (as used), `arena.c`,
`pos.c`, `util.c` (error formatting, file lookup of a position), `lexer.c`, and
of `tiny.c`: values and equality, objects and collector, threads, calls, globals,
the whole instruction set, instruction encoding, string registration, the symbol
table, binding of types, constants, functions and macros by the host, the parser,
type resolution, code generation, the file/line table, `Tiny_CompileString` with
its rollback, the disassembler (mnemonics and operands; the text layout is not).
Of `std.c`: strlen, stridx, strchr, strcat, substr, stoi, int_to_str, print,
printf, all array and dict functions (183-450, with their natives' mark
functions), the i64 functions, get_function_index and call_function, the `array`
macro (851-938), and what Tiny_BindStandardArray, -Dict, -IO, -Lib and Tiny_BindI64 bind.

Foreign functions are arbitrary programs over the host API (`fprog`, VM.v): read
and write host memory, allocate strings and natives, read objects, get and set
globals, call back into the VM.  Macros are arbitrary functions on the compiler's
state made of what a host may do (`steps` in Host.v, `moves` in Props_Fail.v),
which includes compiling strings inside the compile.

Not modelled:
`snow.h`, the test programs and `terp` front end, in `std.c` the time,
random, threading, JSON, delegate and HTTP parts,
allocation failure, `%p` and `%f` text (parameters).
Concurrency between OS threads is not modelled; interleaving of Tiny threads is.

Simplifications of note: the operand stack is a list (slots above the top are
not values; reading one is `UB`); object addresses are numbers in order of
creation, never reused; the token stream of a source is computed before parsing
(the lexer does not depend on the parser); the parser's tree is what C builds in
its arena, so the arena appears only in C06.

## 4. Trusted base

* Coq's kernel (8.16.1), re-checked by coqchk.
* No axioms: `Print Assumptions` answers "Closed under the global context" for
  every theorem named in MANIFEST.json.  coqchk additionally lists seven axioms
  of `Coq.ssr.ssrunder` (module type parameters of the standard library loaded
  with `lia`/`ssreflect`); no theorem depends on them.
* That the model is the code: each definition names its lines.  No tool checks
  this correspondence.
* `vm_compute` is used in examples only where coqchk re-checks it by reduction.

## 5. What is missing

* C02: growing a non-empty array by `array_resize` is wrong in the code; what it
  does instead is proved for every history (`array_resize_grows`).
* C25 is type safety up to null: an operand of a typed instruction is null or of
  the right kind.  Null cannot be excluded (`null_result_refuted`), and five
  constructs outside the fragment `static_s` are accepted by the checker although
  they do confuse kinds (`float_plus_one_refuted`, `cast_refuted`,
  `compound_string_refuted`, `few_arguments_refuted`, `index_function_refuted`).

## 6. Differences between the code and what a user would expect

Each is either proved (`_refuted` and the theorems named) or appears as a
precondition.

F1 array_resize growth writes out of bounds. F2 clear/resize of an array with no
buffer is UB. F3 array_insert rejects index = length. F4 an unclosed string
literal makes the lexer loop forever. F5 Tiny_NewInt takes an `int`, so results
of `% & | << >>`, strlen, stoi etc. are truncated to 32 bits. F6 `x + 1` with the
literal 1 compiles to ADD1, which adds 1 to the bit pattern of a float. F7
PUSH_STRING is emitted with 4-byte and read with 8-byte alignment. F8 a failed
compile overwrites the HALT at the end of the previous code and keeps its
file/line records. F9 break/continue outside a loop jump to address 0. F10 a
failed compile leaves the current function/scope and the counts of functions and
globals. F11 `T?` is not assignable to `T?` (`nullable_to_itself_refuted`). F12 compound assignment checks only
assignability. F13 a function without return gives null. F14, F15 too few
arguments to a Tiny function or constructor are accepted. F16 uninitialised
locals can be read. F18 pushes are not bounds-checked. F22 `%%` in printf takes
an argument and complains. F23 comparison of dict keys truncates. F27 `use` of
129 arguments overruns. F28 integer literals are truncated; negating INT_MIN is
UB. F46 `x := x` reads an uninitialised tag. F50 the disassembler does not know
shifts. F51 marking does not end on cyclic structures. F53 a foreign function
calling back twice can leave a dangling return value. F54 a collection leaving no
object sets the threshold to 0. F58 a second definition of a function is ignored.
F60 a thread whose globals were allocated before a further compile accesses them
out of bounds. F62 a failed compile can leave a struct defined with fields whose
types are gone. F64 `a[i] += v` and `e.f += v` evaluate their operands twice. F65
primitive arrays built through the varargs constructor can hold objects the
collector does not see. F66 `%q` of a bool prints nothing. F67 a format ending in
`%` reads past its terminator. F68 substr of an empty range outside the string is
accepted. F69 the line recorded for `break`, `while` and `for` is that of the token after
the keyword. F70 the parser takes any token between two expressions for an assignment
operator; the type checker rejects it later.
F71 a structure that only the signature of a bound function names is never required to
be defined (the check covers the symbols a compile adds): `new` of it aborts the
compiler. F72 the check for uninitialised variables (CheckInitialized) can never fail:
every variable is declared by an assignment (`accepted_exactly`).
F73 growing a non-empty array by resize also brings back popped values, which may be
collected by then (`resize_resurrects_refuted`); F65 is `primitive_array_dangles_refuted`.
F74 sorting an array of ints subtracts, which overflows; F75 clearing the array of keys
of an empty dict dereferences null (`sort_and_clear_undefined_refuted`). F76 the typed
`get` of a dict macro is declared to give the value's type but gives null for an absent key. F77 text after the signature given to
Tiny_BindFunction is ignored (`bind_case`: `open(str, file?, ...): file then`). F78 a macro that compiles code mentioning a variable
the program using it declares with `:=` reads a variable without a type (`macro_reads_untyped_refuted`).
F79 after Tiny_BindStandardDict, `use array("any") as array_any` (the type of what dict_values gives) succeeds and
binds nothing, because the name is registered already; so the lists a dict gives can not be used
(`array_of_registered_name_refuted`; likewise a second `use array` of a name with another element type).
F80 the function that makes a typed array takes anything, so `ints("oops")` is an array of ints and an `int`
variable assigned from it holds a text (`typed_array_holds_anything_refuted`, `library_case`).
Read in code that is not modelled: F81 `use delegate("nosuch") as d` and `use json("nosuch")` dereference null
(std.c:1052, 837); F82 `use json` of a structure that contains itself recurses until the stack is gone
(std.c:790-812: the function is looked up before it is compiled); F83 the function generated for a delegate without parameters
(`func .._call(f: T, ) ..`) does not compile and the result is not looked at (std.c:1085); F84 str_to_json passes
`sizeof` of an array of 3 values, 48, as their number to Strcat, which reads far beyond them (std.c:1016).
F85 `get_function_index` of a foreign or unknown name (so also a delegate made of a foreign function) is -1, and
`call_function` of it fails the assertion in Tiny_CallFunction, or reads before functionPcs without assertions
(std.c:1107-1119, tiny.c:585; `call_of_no_function_aborts`). F86 i64_add_many of 2^63-1, 1 and -1 overflows although
the sum fits (`i64_sum_that_fits_refuted`); an unassigned i64 counts as 0 in sums but is not equal to int_to_i64(0)
(`i64_null_is_zero_refuted`). F87 `use array("int") as ints` in a source with
`new ints{}` stops the compiler: the parser made `ints` a structure, the macro a host type, and tiny.c:2875 asserts (`new_of_host_type_refuted`).
F88 `fread` with fewer bytes left than asked for hands over a string whose terminator is not written: the NUL goes after
the bytes asked for, so C functions run on into uninitialised memory (`read_back`: undefined). F89 `fsize` rewinds: the next `fread`
starts over (`fsize_keeps_position_refuted`). F90 `write_file` and `fwrite` cut a string at its first NUL (`write_file_keeps_all_refuted`);
`fwrite` with a length reads past a shorter string; `fread` with a negative number writes past its buffer. F91 `fwrite` is bound as
returning void but returns an int, and `fclose` twice is undefined (`closed_file`).
F92 `stoi` clamps to 64 bits and then keeps 32: `stoi("9223372036854775808")` is -1
(`stoi_saturates_refuted`). F93 `printf` with an unknown specifier or `%%` uses up an argument and
prints a complaint to stdout (`rendered`); with `%f` an int's bits are read as a float's.
