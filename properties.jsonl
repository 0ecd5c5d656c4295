{"id": "C01", "title": "Array behaves like a list", "statement": "Every sequence of array operations (push, pop, shift, insert, remove, set, get, resize of an empty array, clear) on an array value gives the same results as on an abstract list, aborts exactly when an index is out of range or the array is empty, and never reads or writes outside its buffer, across every growth of the buffer.", "quantifier": "every finite history of array operations and every value", "why_tests_cant": "buffer growth happens at data-dependent points; a suite samples a few lengths and never sees all interleavings of growth with shifting operations", "anchors": ["tiny/src/array.c: InitArray, ArrayPush, ArrayPop, ArrayShift, ArrayInsert, ArrayRemove, ArraySet, ArrayGet, ArrayClear, ArrayResize", "tiny/src/stretchy_buffer.h: stb__sbgrowf"]}
{"id": "C02", "title": "What resizing an array does", "statement": "array_resize(a, n, v) to a length not above the current one, or of an empty array, keeps the first min(n, len) elements and makes every new element v, inside the array's buffer. Growing a non-empty array (a bug in the code) keeps the elements but never stores v in the first new slot: it either writes outside the buffer whatever v is, or leaves memory that does not depend on v in the slots len to 2*len-1 and stores v only beyond.", "quantifier": "every array after every history of operations, every new length and fill value", "why_tests_cant": "the fault depends on the length before the call and on the allocator's slack: small tests read back their own uninitialised memory", "anchors": ["tiny/src/array.c: ArrayResize", "tiny/src/std.c: Lib_ArrayResize"]}
{"id": "C03", "title": "Dict behaves like a finite map", "statement": "After any history of set/remove/clear on a dict, get(k) returns the value of the last set of an equal key with no later remove/clear, and 'absent' otherwise; every operation terminates; growth never loses or duplicates a key.", "quantifier": "every finite history of operations over every choice of hashable keys, hence every collision pattern", "why_tests_cant": "probe chains, wrap-around, deletion by re-insertion and doubling interact through hash collisions; tests meet few patterns", "anchors": ["tiny/src/dict.c: DictSet, DictGet, DictRemove, DictClear, Grow, HashValue"]}
{"id": "C04", "title": "Dict count and key enumeration are exact", "statement": "The number of occupied buckets equals the recorded count and equals the number of distinct keys; enumerating the buckets yields every key of the map exactly once; the table is never more than half full.", "quantifier": "every history of dict operations", "why_tests_cant": "counting invariants are broken only by particular collision/removal interleavings", "anchors": ["tiny/src/dict.c: DictSet, DictRemove, Grow", "tiny/src/std.c: Lib_DictKeys"]}
{"id": "C05", "title": "Value equality is an equivalence that hashing respects", "statement": "Tiny_AreValuesEqual is symmetric and transitive on all values, reflexive on all but float NaN, relates const and heap strings by content, and equal hashable values have equal hashes.", "quantifier": "every triple of values and every heap", "why_tests_cant": "equality spans nine value kinds and two string representations incl. embedded NULs; the triple space is infinite", "anchors": ["tiny/src/tiny.c: Tiny_AreValuesEqual, Tiny_StringLen, Tiny_ToString", "tiny/src/dict.c: HashValue"]}
{"id": "C06", "title": "Arena allocations are disjoint, in bounds and aligned", "statement": "Every block returned by the parser arena lies inside one live page, overlaps no other block returned before or after, starts at an offset that is a multiple of a power-of-two alignment, and earlier blocks never move; destroying the arena frees each page exactly once.", "quantifier": "every sequence of (size, alignment) requests", "why_tests_cant": "page switching and oversize pages depend on the whole request history", "anchors": ["tiny/src/arena.c: Tiny_ArenaAlloc, NextMultipleOf, Tiny_DestroyArena"]}
{"id": "C07", "title": "Constant strings are interned", "statement": "Registering a string returns an index at which exactly that string is stored; equal strings always get equal indices and distinct strings distinct ones; indices already handed out keep denoting the same string; the table aborts rather than overflow.", "quantifier": "every history of registrations", "why_tests_cant": "injectivity must hold over all histories, and the pointer shortcut in equality relies on it", "anchors": ["tiny/src/tiny.c: RegisterString"]}
{"id": "C08", "title": "Source offset to line number", "statement": "The line reported for an offset is one plus the number of newlines before it, and the (line, column) position satisfies: column is the distance to the last newline before the offset.", "quantifier": "every source text and offset", "why_tests_cant": "an off-by-one shows only on particular newline placements", "anchors": ["tiny/src/util.c: Tiny_TranslatePosToLineNumber", "tiny/src/pos.c: Tiny_PosToFriendlyPos"]}
{"id": "C09", "title": "Error messages never overrun their buffer", "statement": "Formatting a compile error writes only inside the caller's buffer, always leaves it NUL-terminated, and the text is the longest prefix that fits of: the source lines within three of the error line, numbered, then the ERROR line with file and line number.", "quantifier": "every buffer size, source, position and message", "why_tests_cant": "overrun needs a source longer than the buffer at the wrong place; the snprintf size arithmetic must be right for all totals", "anchors": ["tiny/src/util.c: Tiny_FormatErrorV"]}
{"id": "C10", "title": "Lexer never reads past the source and makes progress", "statement": "For every NUL-terminated source and any number of token requests, no byte beyond the terminator is read; every token other than end-of-file and a lexical error advances the position; and within strlen+1 requests the lexer reports end-of-file or a lexical error, unless some string literal is unclosed (then it never returns).", "quantifier": "every source text", "why_tests_cant": "all byte strings, including malformed ones", "anchors": ["tiny/src/lexer.c: Tiny_GetToken, GetChar, PeekChar"]}
{"id": "C11", "title": "Whitespace and comments between tokens do not matter", "statement": "Inserting whitespace and // comments at a token boundary changes no token's kind or payload, and shifts the line numbers of later tokens by the newlines inserted (a comment directly after a division sign needs a blank before it).", "quantifier": "every source, every boundary, every amount of white space", "why_tests_cant": "infinitely many insertions", "anchors": ["tiny/src/lexer.c: Tiny_GetToken"]}
{"id": "C12", "title": "Every token is lexed back from its spelling", "statement": "Printing any sequence of tokens with separating blanks and lexing the text gives back the same kinds and payloads (identifier names, integer, char and string values with escapes).", "quantifier": "every token sequence", "why_tests_cant": "maximal-munch and escape handling interact over an infinite language", "anchors": ["tiny/src/lexer.c: Tiny_GetToken"]}
{"id": "C13", "title": "The lexer's line counter agrees with the source", "statement": "After any number of tokens the lexer's line number is one plus the newlines consumed outside string and character literals, so for sources without multi-line literals the line numbers attached to code are the real ones.", "quantifier": "every source", "why_tests_cant": "depends on arbitrary mixtures of comments, literals and newlines", "anchors": ["tiny/src/lexer.c: Tiny_GetToken"]}
{"id": "C14", "title": "Operator precedence and associativity", "statement": "Parsing the fully unparenthesised spelling of any expression tree whose shape respects the precedence table yields that tree: * / % & | over << >> + - over comparisons over && ||, all left-associative; parentheses override.", "quantifier": "every expression tree", "why_tests_cant": "unbounded nesting; tests fix a few shapes", "anchors": ["tiny/src/tiny.c: ParseBinRhs, GetTokenPrec, ParseFactor"]}
{"id": "C15", "title": "Parser totality", "statement": "For every source text, whatever was compiled or bound before, the parser ends either with statement trees or with a compile error, with at most one tree node per token; it never loops and never reads beyond end of file. The one exception is a string literal that is never closed.", "quantifier": "every source text and every reachable compiler state", "why_tests_cant": "malformed streams are unbounded", "anchors": ["tiny/src/tiny.c: ParseExpr, ParseFactor, ParseValue, ParseStatement, ParseProgram"]}
{"id": "C16", "title": "Instruction stream encode/decode round trip", "statement": "An operand emitted at any program length is padded to its alignment and read back by the VM with the same value and the same next pc; patching a jump target changes only that operand.", "quantifier": "every program length, operand width and operand value", "why_tests_cant": "alignment depends on the running code length: all residues and all values must work", "anchors": ["tiny/src/tiny.c: GEN_VALUE, GEN_VALUE_AT, READ_VALUE_AT, ReadInteger, ReadConstIndex"]}
{"id": "C17", "title": "Compiled expressions compute their source meaning", "statement": "Running the bytecode of a type-correct expression pushes exactly the value the language semantics gives it and leaves the rest of the stack, the frames and the variables as that semantics says, for every operator, short-circuit, ternary, field access, constructor and call.", "quantifier": "every expression, environment and placement in memory", "why_tests_cant": "compiler correctness quantifies over all programs and all inputs", "anchors": ["tiny/src/tiny.c: CompileExpr, ExecuteCycle"]}
{"id": "C18", "title": "Compiled statements execute their source meaning", "statement": "Running the bytecode of a statement (assignment, compound assignment, if/else, while, for, break, continue, return, block) from its first instruction reaches exactly its end or the jump target the semantics says, with the same effect on locals, globals, heap and output.", "quantifier": "every program and input", "why_tests_cant": "unbounded loops and nesting", "anchors": ["tiny/src/tiny.c: CompileStatement, PatchBreakContinue"]}
{"id": "C19", "title": "Whole programs: what runs is what was written", "statement": "Compiling a program and running a fresh thread to completion gives the observable trace (foreign calls with their arguments and results, final globals) of the source semantics.", "quantifier": "every accepted program in the modelled language, every foreign-function behaviour", "why_tests_cant": "all programs, all host behaviours", "anchors": ["tiny/src/tiny.c: Tiny_CompileString, CompileProgram, Tiny_StartThread, Tiny_Run"]}
{"id": "C20", "title": "Function calls restore the caller's frame", "statement": "After a call returns, the caller's locals, frame pointer, stack height (minus the arguments) and next instruction are exactly as before, and the returned value is the one produced by the callee, at every recursion depth allowed.", "quantifier": "every call nesting and argument count", "why_tests_cant": "frame discipline must hold at any depth", "anchors": ["tiny/src/tiny.c: DoPushIndir, DoPopIndir, ExecuteCycle"]}
{"id": "C21", "title": "Host re-entry leaves the interpreter where it was", "statement": "Tiny_CallFunction, called from the host or inside a foreign function, returns the callee's result and restores pc, fp, sp, frame count and the previous return value, without changing stack slots below the saved height.", "quantifier": "every thread state and callee behaviour", "why_tests_cant": "the callee can be any program", "anchors": ["tiny/src/tiny.c: Tiny_CallFunction"]}
{"id": "C22", "title": "The collector never frees what is still reachable", "statement": "After a collection every object reachable from the return value, the stack and the globals is still allocated with the same contents, and no live value points to a freed object.", "quantifier": "every heap graph and root set", "why_tests_cant": "depends on arbitrary object graphs", "anchors": ["tiny/src/tiny.c: MarkAll, Tiny_ProtectFromGC, Sweep, GarbageCollect"]}
{"id": "C23", "title": "The collector frees exactly the garbage, once", "statement": "A collection frees (finalising natives exactly once) precisely the unreachable objects, keeps the object count equal to the length of the object list, leaves no object marked, and sets the next threshold to twice the survivors.", "quantifier": "every heap", "why_tests_cant": "as above", "anchors": ["tiny/src/tiny.c: Sweep, DeleteObject, GarbageCollect"]}
{"id": "C24", "title": "Garbage collection is invisible to the program", "statement": "Running a program with any collection threshold gives the same observable behaviour as running it with collection disabled.", "quantifier": "every program and every schedule of collections", "why_tests_cant": "the collection points depend on allocation history", "anchors": ["tiny/src/tiny.c: ExecuteCycle, GarbageCollect"]}
{"id": "C25", "title": "Well-typed programs do not confuse value kinds", "statement": "A program accepted by the type checker, in the statically typed fragment (no casts from any, no x+1 / x-1 on floats, compound assignment only to numbers, calls with all arguments, index functions of fitting types), never gives an arithmetic or comparison instruction, a jump or a field access an operand of the wrong kind: the operand has the kind the instruction needs or is null; variables, fields, globals, arguments and results hold values of their declared type or null. This holds in the program and in functions called by the host, if the foreign functions return, store and pass values of the declared types.", "quantifier": "every history of successful compiles and host calls, every such program, every polite host, every thread, cycle, collector schedule and nesting of callbacks", "why_tests_cant": "type soundness quantifies over programs and runs", "anchors": ["tiny/src/tiny.c: ResolveTypes, IsTagAssignableTo, ExecuteCycle"]}
{"id": "C26", "title": "Name resolution finds the innermost visible declaration", "statement": "A variable reference resolves to the unique open local of that name, else the argument, else the global or constant; locals of closed scopes are never found.", "quantifier": "every declaration/scope history", "why_tests_cant": "depends on arbitrary interleavings of open/close/declare", "anchors": ["tiny/src/tiny.c: ReferenceVariable, OpenScope, CloseScope, DeclareLocal"]}
{"id": "C27", "title": "Runtime position lookup names the right line", "statement": "For every pc of generated code, the file and line reported for it are those of the last statement or expression recorded at or before that pc.", "quantifier": "every program and pc", "why_tests_cant": "binary search correctness over every table", "anchors": ["tiny/src/tiny.c: Tiny_GetFileLine / pcToFileLine lookup"]}
{"id": "C28", "title": "A failed compile keeps what was compiled before", "statement": "When compiling a string fails, at whatever point, and however often: every function, global, constant, type and foreign function bound or compiled before is still found under its name with the same number, the code of earlier programs, its entry points, its strings and the file/line records of its statements are unchanged up to the final halt instruction, no name of the failed text is left, and calling an earlier function gives the same result as before the failure. (The state is not restored entirely: the final halt may be overwritten, line records, a half-parsed function and struct definitions can be left behind; see the refuted theorems.)", "quantifier": "every reachable state, every source text that fails at any point, any sequence of further host operations and successful or failing compiles, including ones made by macros", "why_tests_cant": "failure can occur at any token of any program", "anchors": ["tiny/src/tiny.c: Tiny_CompileString"]}
{"id": "C29", "title": "Compiling more code preserves what was compiled", "statement": "A second successful compile leaves every earlier function's index, entry point, code and behaviour, and every global's index, unchanged.", "quantifier": "every pair of programs", "why_tests_cant": "programs are unbounded", "anchors": ["tiny/src/tiny.c: Tiny_CompileString, Tiny_GetFunctionIndex, Tiny_GetGlobalIndex"]}
{"id": "C30", "title": "Disassembler and VM agree on instruction boundaries", "statement": "For every instruction both understand, the disassembler advances to exactly the address of the next instruction the VM would execute (absent a jump).", "quantifier": "every code address and operand", "why_tests_cant": "alignment makes instruction length position dependent", "anchors": ["tiny/src/tiny.c: Tiny_DisasmOne, ExecuteCycle"]}
{"id": "C31", "title": "Threads on one state are isolated", "statement": "Executing a cycle of one thread changes nothing another thread of the same state can observe: code and tables are read-only and heap, globals and stack are per thread; so any interleaving gives each thread its solo result.", "quantifier": "every interleaving of any number of threads", "why_tests_cant": "all schedules", "anchors": ["tiny/src/tiny.c: ExecuteCycle, Tiny_InitThread"]}
{"id": "C32", "title": "Stepping and running agree", "statement": "Tiny_Run equals iterating Tiny_ExecuteCycle until it returns false; a halted thread stays halted; execution is deterministic given foreign results.", "quantifier": "every program and any number of steps", "why_tests_cant": "unbounded executions", "anchors": ["tiny/src/tiny.c: Tiny_Run, Tiny_ExecuteCycle"]}
{"id": "C33", "title": "Integer arithmetic is 64-bit two's complement where defined", "statement": "+ - * / on ints give the exact mathematical result whenever it fits 64 bits, / truncates toward zero; % & | << >> results and integer literals are limited to 32 bits.", "quantifier": "all operand pairs", "why_tests_cant": "2^128 pairs", "anchors": ["tiny/src/tiny.c: BIN_OP, BIN_OP_INT, Tiny_NewInt"]}
{"id": "C34", "title": "Struct fields are independent cells", "statement": "Setting field i of a struct then reading field j gives the new value iff i=j; other structs are unaffected; aliases see the update.", "quantifier": "every heap, struct, index and value", "why_tests_cant": "aliasing patterns are unbounded", "anchors": ["tiny/src/tiny.c: TINY_OP_STRUCT_GET, TINY_OP_STRUCT_SET, TINY_OP_PUSH_STRUCT"]}
{"id": "C35", "title": "Stack and call-depth limits", "statement": "The operand stack of compiled code never goes below its frame base and its height at each point is the one determined at compile time; calls beyond the depth limit abort instead of corrupting memory.", "quantifier": "every program point and execution", "why_tests_cant": "height consistency over all paths", "anchors": ["tiny/src/tiny.c: DoPush, DoPushIndir, CompileExpr"]}
{"id": "C36", "title": "Library string functions", "statement": "strcat concatenates all its arguments' text, substr/stridx/strchr/strlen agree with the mathematical string operations, for all in-range arguments.", "quantifier": "all strings and indices", "why_tests_cant": "infinite domains", "anchors": ["tiny/src/std.c: Strcat, Lib_Substr, Lib_Stridx, Lib_Strlen"]}
{"id": "C37", "title": "Native objects are finalised exactly once", "statement": "Over the whole life of a thread, every native object with a finaliser that was ever created is at any moment either still alive or has been finalised exactly once, and destroying the thread finalises all that are left.", "quantifier": "every program, every host behaviour, every schedule of collections and host calls", "why_tests_cant": "creations, collections and destruction interleave arbitrarily", "anchors": ["tiny/src/tiny.c: Tiny_NewNative, DeleteObject, Sweep, Tiny_DestroyThread"]}
{"id": "C38", "title": "printf and number conversion", "statement": "printf writes exactly what its format and arguments denote (literal text, %i, %f, %s, %c, %q) and nothing else; int_to_str gives the decimal form of any 64-bit integer and stoi reads it back for 32-bit ones.", "quantifier": "all formats, argument lists, nested structs and arrays, all integers", "why_tests_cant": "infinitely many formats and values, nesting of any depth", "anchors": ["tiny/src/std.c: Lib_Printf, Print, Lib_IntToStr, Lib_Stoi"]}
{"id": "C39", "title": "Statements and declarations are read as the grammar says", "statement": "A source text is accepted by the parser exactly when its tokens spell a program of the language's statement grammar, and the statement trees and declared symbols are those the grammar gives: blocks, functions, if/else, loops, return, break, continue, use, declarations, constants, assignments, calls and structs. The tokens determine the program, an else belongs to the nearest if, and more stack does not change the answer.", "quantifier": "every source text, every symbol table left by earlier compiles and bindings", "why_tests_cant": "infinitely many programs; statements have no terminator, so where one ends depends on every following token", "anchors": ["tiny/src/tiny.c:1637-1817 (ParseProc, ParseStruct, ParseBlock ...)", "tiny/src/tiny.c:2197-2458 (ParseStatement, ParseProgram)"]}
{"id": "C40", "title": "Foreign functions get the arguments they were bound with", "statement": "Whenever compiled code calls a foreign function, the callback invoked is the one the host bound, and it receives exactly as many values as its signature declares, or at least that many if it was bound as variadic, all of them pushed by the calling function.", "quantifier": "every compiled program, every call site, every execution, including code entered by host callbacks at any depth", "why_tests_cant": "ranges over all programs, bindings and executions; the callback indexes its argument array without a check", "anchors": ["tiny/src/tiny.c: CompileCallSymbolWithArgsPrepared (3085-3106)", "tiny/src/tiny.c: DoCallForeign, TINY_OP_CALLF", "tiny/src/tiny.c: Tiny_BindFunction (1010-1077)"]}
{"id": "C41", "title": "Lookups by name find what the script means", "statement": "Tiny_GetFunctionIndex and Tiny_GetGlobalIndex answer -1 exactly when no script function or global has the name; otherwise the index is that of the compiled function or variable a script means by that name (unless a foreign function bound earlier has the same name), different names have different indices, and calling through the index runs the same function a script call would.", "quantifier": "every state reached by any bindings and compiles, every name, every call", "why_tests_cant": "ranges over all programs and histories of compiles", "anchors": ["tiny/src/tiny.c: Tiny_GetGlobalIndex (542), Tiny_GetFunctionIndex (554), ReferenceFunction (948), ReferenceVariable (783)"]}
{"id": "C42", "title": "Type checking follows the typing rules", "statement": "A parsed program passes type checking exactly when it is derivable by the typing rules of the language (assignability, operators, calls, struct construction, casts, conditionals, indexing, declarations, returns), the types recorded in the compiled program are the derived ones, and each expression has at most one type.", "quantifier": "every expression, statement and program, every symbol table (for statements: with distinct symbols, which every reachable state has)", "why_tests_cant": "an equivalence over all programs and all symbol tables; tests only show single accepted or rejected programs", "anchors": ["tiny/src/tiny.c: IsTagAssignableTo (2465-2490), ResolveTypes (2492-3035)"]}
{"id": "C43", "title": "Exactly the acceptable sources compile", "statement": "Compiling a source without macros succeeds exactly when its tokens spell a program of the grammar, every structure it names is defined, it is well typed, and its calls have the right number of arguments, its assignment targets can be assigned to and no function has more than 255 locals; the program compiled is that one. Once a source is well typed, code generation always answers (success or error), and the check for uninitialised variables never rejects anything.", "quantifier": "every reachable state, every source without use statements and without the literal -2^31, any file name, as long as the string table has room", "why_tests_cant": "an equivalence over all sources and all states; tests only show single accepted or rejected programs", "anchors": ["tiny/src/tiny.c: CompileExpr, CompileStatement (3039-3878), CheckInitialized (3888-3912), CompileState (3926-3961), Tiny_CompileString (3963-4081)"]}
{"id": "C44", "title": "Containers of a running program are lists and maps", "statement": "Whatever a program does between its calls, every call of the library's array and dict functions replies as the corresponding list or finite map would, or aborts the program where that has no answer (index out of range, key that cannot be hashed, odd number of dict arguments, sorting something else than ints); a call changes no other container; the collector is shown exactly what the containers hold.", "quantifier": "every history of calls and of anything else in between, any number of containers, any values, any placement of objects in memory; objects used as keys keep their contents", "why_tests_cant": "must hold for every interleaving of calls on any number of containers and every heap", "anchors": ["tiny/src/std.c: array functions (183-336), dict functions (338-450)", "tiny/src/array.c", "tiny/src/dict.c"]}
{"id": "C45", "title": "What a container holds stays alive", "statement": "An object reachable through arrays and dicts is never collected: a program using the library ends with the same result and the same reachable objects under every collection policy as without collection, provided it does not read objects out of primitive arrays, grow non-empty arrays by resize or build cycles.", "quantifier": "every program, every collection policy, every set of further foreign functions that respect the collector", "why_tests_cant": "collection points are arbitrary; tests exercise one threshold policy on few programs", "anchors": ["tiny/src/std.c: array functions (183-336), dict functions (338-450)", "tiny/src/array.c", "tiny/src/dict.c", "tiny/src/tiny.c: Tiny_ProtectFromGC, GarbageCollect (98-165)"]}
{"id": "C46", "title": "What the host binds is what programs see", "statement": "Binding a function succeeds exactly when the text is a signature and no foreign function has its name, and binds exactly the name, parameter types, variadicity and result type the text says; afterwards, whatever else is bound and compiled, a call of that name runs the host's function on the arguments unless a program had already defined a function of that name. A bound constant keeps its type and value under its name in everything compiled later; a registered type is from then on spelled by its name and takes no values but its own; a macro can be bound once and is what `use` of its name runs.", "quantifier": "every reachable state, every signature text, name and value, every later sequence of host calls and compiles, every program and argument list", "why_tests_cant": "all texts of signatures and all later histories of binding and compiling", "anchors": ["tiny/src/tiny.c: Tiny_RegisterType (989-1006), Tiny_BindFunction (1008-1077), Tiny_BindConst* (1079-1096), Tiny_BindMacro (4374-4389), Tiny_CompileString (4007-4047)"]}
{"id": "C47", "title": "Compiling always comes to an answer", "statement": "Compiling a source either succeeds or reports an error: it never fails an assertion, never meets undefined behaviour and never runs on for ever, whatever the text. The exceptions are exactly: a string literal that is never closed (the lexer may not stop), declarations x := e whose e mentions x (undefined behaviour), new of a structure only a bound function's signature has mentioned (assertion), more than 1024 strings, and negating -2^31.", "quantifier": "every state a host can reach by binding and compiling, every source text without use statements, with or without file name", "why_tests_cant": "all source texts in all symbol-table states", "anchors": ["tiny/src/tiny.c: Tiny_CompileString (3963-4081), ResolveTypes (2492-3035), IsTagAssignableTo (2465-2490), CompileState (3926-3961), CompileStatement (3604-3878), GetTagFromName/parser (1444-2458)"]}
{"id": "C48", "title": "The standard library's typed arrays and dicts have the functions and types they promise", "statement": "`use array(\"E\") as A` is refused exactly when it does not have one argument and a name or neither name is that of a type, does nothing when A is a type already, and otherwise makes A a type of its own and binds A(...), A_push(A, E): void, A_get(A, int): E, A_set, A_len, A_pop, A_remove, ... (and A_sort for int) with exactly these types, failing only if a bound function has such a name. A call of one is well typed exactly when its arguments have these types, a[i] has type E, and all of it stays so whatever is compiled or bound later. Tiny_BindStandardDict likewise for dict, dict_str_int and their functions.", "quantifier": "every state a host can reach by binding and compiling, every element type and array name whose signatures fit 511 characters, every later history of host calls and compiles", "why_tests_cant": "all names, element types, symbol tables and later histories", "anchors": ["tiny/src/std.c: ArrayMacroFunction (851-938), Tiny_BindStandardArray (940-942), Tiny_BindStandardDict (944-971)", "tiny/src/tiny.c: Tiny_FindTypeSymbol (4395-4404), Tiny_BindFunction (1010-1077), Tiny_RegisterType (989-1006)"]}
{"id": "C49", "title": "The standard library binds exactly the names, types and constants it promises", "statement": "Tiny_BindStandardLib, Tiny_BindStandardIO and Tiny_BindI64 each succeed exactly when none of their function, constant and macro names is already bound that way in the state, and otherwise fail. Afterwards, and whatever is compiled or bound later, every function of the library that no earlier function of that name hides is found by its name with exactly the promised argument types, variadic flag, result type and C function; INT_MAX is 2147483647 as an int constant; the types file and i64 are types of their own; the macros delegate and json can be used; and s[i] on a str is an int obtained from str_get_index.", "quantifier": "every state a host can reach by binding and compiling, every later history of host calls and compiles", "why_tests_cant": "all prior symbol tables and later histories", "anchors": ["tiny/src/std.c: Tiny_BindStandardIO (973-988), Tiny_BindI64 (990-997), Tiny_BindStandardLib (1175-1228)", "tiny/src/tiny.c: Tiny_BindFunction (1010-1077), Tiny_BindConstInt, Tiny_BindMacro, Tiny_RegisterType (989-1006)"]}
{"id": "C50", "title": "64-bit integers are exact until they overflow", "statement": "int_to_i64 of an int is an i64 for the same number; i64_add_many and i64_mul_many of any number of i64s give the i64 for their sum and product when every partial result from left to right is between -2^63 and 2^63-1, and are undefined otherwise; i64_to_string gives the decimal spelling; two i64s are == exactly when their numbers are equal. An unassigned i64 (null) counts as 0 in arithmetic but is not == to it.", "quantifier": "all numbers, all argument lists, all thread states", "why_tests_cant": "all 64-bit numbers and argument lists of any length", "anchors": ["tiny/src/std.c: Lib_IntToI64, Lib_I64AddMany, Lib_I64MulMany, Lib_I64ToString (736-769)", "tiny/src/tiny.c: Tiny_ToAddr (181-186), Tiny_NewLightNative (319-326), Tiny_AreValuesEqual (200-257)"]}
{"id": "C51", "title": "Calling a function through its number is calling the function", "statement": "get_function_index(name) of a function of the program gives a number such that call_function(number, args...) has the same result, effects and failures as calling the function by its name with these arguments; for a name that no function of the program has (a foreign function's, say) the number is -1 and calling it fails.", "quantifier": "all programs a host can compile in any number of steps, all functions, arguments, thread states, stack heights and call depths", "why_tests_cant": "all programs, all histories of compiles, all states in which the call is made", "anchors": ["tiny/src/std.c: GetFunctionIndex, CallFunction (1107-1119)", "tiny/src/tiny.c: Tiny_GetFunctionIndex (554-564), Tiny_CallFunction (583-618)"]}
{"id": "C52", "title": "Sources with use statements: accepted exactly when well formed after the macros have run", "statement": "A source with use statements compiles successfully exactly when it is a program of the grammar, every macro it uses is bound and succeeds when the macros run in the order of the use statements (with at most 128 arguments each) after the whole source has been read, every structure the source names is then defined or has become a type of the host's, the program is well typed with all that the macros have bound (in functions and statements written before the use statement too), and assigns to no constant, breaks and continues only inside loops and calls only functions that are defined. Otherwise it is rejected with an error. The array macro of the standard library is one of the macros this holds for.", "quantifier": "all sources, all states a host can reach, all macros that do nothing but bind types, functions, macros and constants, all arguments of use statements", "why_tests_cant": "all sources and all macros: both directions (no wrong source accepted, no right source rejected)", "anchors": ["tiny/src/tiny.c: Tiny_CompileString, CompileState (3475-3689), ResolveTypes of use statements, CheckInitialized", "tiny/src/stdarray.c: array macro"]}
{"id": "C53", "title": "Compiling a source with use statements always comes to an answer", "statement": "If every macro the source uses only makes host bindings, answers where it is run (success or failure) with at most 128 arguments, mentions no structure that is defined nowhere, and does not make a type of the host's out of a name that the source makes with `new`, then compiling the source never aborts the process, never runs into undefined behaviour and never runs out of steps: it succeeds or fails with an error message; it hangs only on a string literal that is never closed.", "quantifier": "all sources (no declaration mentioning itself, no literal -2^31, room in the string table), all states a host can reach in which no structure is pending, all macros as above", "why_tests_cant": "all sources and all macros: the absence of crashes and hangs", "anchors": ["tiny/src/tiny.c: Tiny_CompileString (3963-4081), ResolveTypes (2625-3030), Tiny_RegisterType (989-1007)", "tiny/src/std.c: ArrayMacroFunction (851-938)"]}
{"id": "C54", "title": "What the host finds by name is what was declared, and stays so", "statement": "A constant the host binds is found afterwards by its name, with the value given; a type it registers is found. After a successful compile every constant the source declares (also inside functions) is found by name with the value of its literal, and it is what the name means to scripts; every structure the source declares is found. What has once been found by name (constant, type, function, or interned string) is found identically after any further bindings, macros and compiles, whether they succeed or fail.", "quantifier": "all reachable states, all later sequences of host calls and compiles (failing ones included), all sources and names", "why_tests_cant": "all histories of bindings and compiles, including failed ones that roll parts of the symbol table back", "anchors": ["tiny/src/tiny.c: Tiny_FindTypeSymbol, Tiny_FindConstSymbol, Tiny_GetStringFromConstIndex (4395-4427)", "tiny/src/tiny.c: ReferenceFunction, DeclareConst"]}
{"id": "C55", "title": "Files hold what was written and are read back as written", "statement": "write_file makes the file hold the string (up to its first NUL) and changes no other file; read_file returns a file's bytes, null if there is none. Whatever is written with fwrite between fopen and fclose, in any number of pieces and with anything else (including work on other files) in between, is what the file then holds: all of it for mode w, after the old bytes for mode a. Strings read piece by piece with fread are together the file from its start; asking for more bytes than are left is undefined. fseek sets the place; fsize returns the length but also moves to the start. A closed file must not be used again.", "quantifier": "all files, names, strings, piece sizes and histories of calls in between; files not open twice while written; a disk where operations on open files do not fail", "why_tests_cant": "all contents, piece sizes and interleavings with other files", "anchors": ["tiny/src/std.c: Lib_Fopen .. Lib_WriteFile (76-181)"]}
{"id": "C56", "title": "Compiling a file is compiling its text", "statement": "Tiny_CompileFile of a file that does not exist reports an error naming the file, cut to the message buffer, and leaves the state as it was. Of a file that exists it succeeds exactly when the file's bytes up to the first NUL are an acceptable source (in the sense of C43), and it always comes to an answer (C47). A source a script saves with write_file is what is then compiled.", "quantifier": "all files, names, reachable states and message buffers; files not open for writing; sources as in C43 and C47", "why_tests_cant": "all texts, names and states", "anchors": ["tiny/src/tiny.c: Tiny_CompileFile (4083-4114)"]}
{"id": "C57", "title": "stoi reads every text in every base", "statement": "stoi(s, b) gives the low 32 bits (signed) of the one number the text up to its first NUL means: leading blanks, an optional sign, the longest run of digits below the base, anything after it ignored, no digits meaning 0; base 16 takes a 0x prefix, base 0 chooses 16, 8 or 10 by the prefix, no base means 10; numbers beyond 64 bits count as the nearest 64-bit number. Every text means a number in base 0 and in the bases 2 to 36; in any other base the result is 0.", "quantifier": "all texts, all bases, all states", "why_tests_cant": "infinitely many texts in 36 bases", "anchors": ["tiny/src/std.c: Lib_Stoi"]}
