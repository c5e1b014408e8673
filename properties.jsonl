{"id": "C01", "title": "Lexing is lossless", "statement": "Lexing a source text yields tokens whose texts, concatenated in order, are exactly the source text up to the end of the last token before the terminal token; if the terminal token is EOF they are the whole source text. Nothing is dropped, duplicated or reordered.", "quantifier": "every source text (any byte string, including invalid UTF-8) and every choice of the Unicode letter/digit tables", "why_tests_cant": "Needs every byte string; tests look at a handful of programs. A wrong slice bound or a missed backup shows only on particular adjacent characters.", "anchors": ["lex/lex.go: lexText, lexComment, lexString, lexInteger, lexHexOrDecInteger, lexSpace, lexIdentifier, emit, next, backup"]}
{"id": "C02", "title": "Lexing terminates with exactly one terminal token", "statement": "Lexing any source text terminates; the token stream is a finite sequence of non-empty tokens followed by exactly one EOF or error token, and nothing follows that token.", "quantifier": "every source text", "why_tests_cant": "Termination and the shape of the stream must hold for all inputs; a loop that forgets to advance hangs only on inputs that reach it.", "anchors": ["lex/lex.go: Lexer.run, NextToken, lexText, errorf"]}
{"id": "C03", "title": "Token classification and maximal munch", "statement": "Each token is of the kind the language defines for its text: keywords and words true/false are never identifiers, identifiers are letter/underscore followed by letters/digits/underscores, '<<' '>>' '<=' '>=' '==' ':=' '..' '//' are never split, and a word or number extends as far as it can (the character after it cannot continue it).", "quantifier": "every source text and every token produced from it", "why_tests_cant": "Requires every text; unit tests enumerate a few tokens and miss the boundaries between two-character operators and words that merely start with a keyword.", "anchors": ["lex/lex.go: lexText, lexIdentifier, atTerminator, key"]}
{"id": "C04", "title": "Token locations", "statement": "The line reported for a token is one plus the number of newlines before its first byte, and the column is its distance from the start of that line, counted the same way on every line.", "quantifier": "every source text and every token produced from it", "why_tests_cant": "Needs every position in every text; a base that differs between the first and later lines is invisible to tests on one-line inputs.", "anchors": ["lex/lex.go: linePos, lineNumber, emit, errorf"]}
{"id": "C05", "title": "Layout does not change meaning", "statement": "Replacing one run of spaces, newlines or a comment by another between two tokens does not change the sequence of kinds and texts handed to the parser.", "quantifier": "every pair of source texts that differ only in layout", "why_tests_cant": "A relation between two arbitrary programs; tests compare single programs.", "anchors": ["lex/lex.go: lexSpace, lexComment, lexText", "main.go: lexAndParse"]}
{"id": "C06", "title": "Parsing is total", "statement": "Parsing any token sequence that ends in EOF terminates, without indexing outside the sequence, and either reports syntax errors or returns a tree.", "quantifier": "every finite token sequence ending in EOF", "why_tests_cant": "Recovery loops must make progress on every malformed input; tests try few malformed inputs.", "anchors": ["parse.go: Parse, need, next, parseExpr, parseBlock, parseParenList, syntaxError, onUnexpectedEof"]}
{"id": "C07", "title": "Expression precedence and associativity", "statement": "Writing an expression tree with parentheses exactly where the documented precedence and associativity demand and parsing the result gives the same tree: no operator binds tighter or associates otherwise than its precedence says.", "quantifier": "every expression tree over all unary, binary, ternary, call, index and selection operators, of any depth", "why_tests_cant": "An infinite family of trees; interactions between three or more operators are not covered by tables of examples.", "anchors": ["parse.go: parseExpr, parseBinaryOperator, parsePrefixOperator, parseTernaryOperator, parseCall, parseArrayAccess", "lex/lex.go: Precedence, Associativity"]}
{"id": "C08", "title": "Statements and declarations parse back", "statement": "Writing out a program tree (functions, structs, enums, blocks, if/elseif/else, while, for, match, return, declarations and assignments) and parsing it gives the same tree and no error.", "quantifier": "every program tree of the grammar", "why_tests_cant": "Infinite family of nested statements; tests contain few nestings.", "anchors": ["parse.go: Parse, parseFn, parseStruct, parseEnum, parseBlock, parseStatement, parseIf, parseMatch, parseFor, parseType"]}
{"id": "C09", "title": "A parse without errors used the whole input", "statement": "If parsing reports no error then every token of the input belongs to the returned tree: no trailing part of the source is silently ignored.", "quantifier": "every finite token sequence ending in EOF", "why_tests_cant": "A truncated input may end after any token; tests cover complete programs.", "anchors": ["parse.go: Parse, next, onUnexpectedEof, parseExpr"]}
{"id": "C10", "title": "Lexical scoping", "statement": "A name resolves to the most recent declaration in the innermost enclosing scope that declares it, declaring a name twice in one scope is rejected and changes nothing, and leaving a scope restores what every name meant before it.", "quantifier": "every sequence of scope openings, closings, declarations and lookups", "why_tests_cant": "Histories of arbitrary length and nesting; tests use one or two scopes.", "anchors": ["symtab.go: SymTab.Define, Resolve, ResolveAll, Owns, Child"]}
{"id": "C11", "title": "Type matching is an equivalence", "statement": "Without type inference, 'matches' between types is reflexive, symmetric and transitive, and two types match exactly when they are the same type up to names of the declarations involved.", "quantifier": "every pair and triple of types", "why_tests_cant": "Types nest without bound; tests list few pairs.", "anchors": ["symtab.go: Type.Matches, MatchesImpl"]}
{"id": "C12", "title": "Type inference is sound", "statement": "When a generic function call is accepted, replacing the function's type parameters by the inferred types makes every parameter type match the type of the argument passed for it, and every occurrence of a type parameter is replaced by one and the same type.", "quantifier": "every generic signature and every list of argument types", "why_tests_cant": "Nested generic types and repeated parameters combine without bound.", "anchors": ["symtab.go: PolyMatch, MatchesImpl", "typecheck.go: matchFuncCallByType, substituteType"]}
{"id": "C13", "title": "Results of generic calls have no unbound type parameter", "statement": "When a generic function call is accepted, its result type mentions no type parameter of the called function that inference did not determine.", "quantifier": "every generic signature and every list of argument types", "why_tests_cant": "Result types nest without bound, a missed case only shows for that shape.", "anchors": ["typecheck.go: findUnboundTypeParameters, matchFuncCallByType"]}
{"id": "C14", "title": "Overload resolution", "statement": "A call resolves to the first declared overload whose parameters match the arguments, and is rejected only when none matches; trying and rejecting one candidate does not influence the next.", "quantifier": "every list of overloads and every list of arguments", "why_tests_cant": "Depends on order and on state left behind by failed candidates; tests use few overloads.", "anchors": ["typecheck.go: matchFuncCallBySymbol, matchFuncCallByType, typeCheckFuncCall"]}
{"id": "C15", "title": "Instantiating generic types terminates", "statement": "Replacing type parameters in any type terminates, including types that refer to themselves.", "quantifier": "every type graph, including cyclic ones, and every substitution", "why_tests_cant": "Tests only show termination for the types they contain.", "anchors": ["typecheck.go: substituteType", "semantic.go: instantiateType"]}
{"id": "C16", "title": "Distinct functions get distinct labels", "statement": "Two functions that differ in name or in parameter types are given different assembler labels, so a call never reaches a different overload.", "quantifier": "every pair of function names and parameter type lists", "why_tests_cant": "Labels are built by concatenation; collisions are rare combinations of names and nested types.", "anchors": ["symtab.go: FunctionType.AsmName, Type.AsmName"]}
{"id": "C17", "title": "Missing-return analysis is sound", "statement": "A function whose body the compiler accepts as returning never runs off its end: every execution of the body that finishes does so through a return statement.", "quantifier": "every function body and every execution (all branch outcomes, loop counts)", "why_tests_cant": "All control-flow paths of all bodies.", "anchors": ["ast.go: Node.isTerminating, IsReturnLastStmt", "typecheck.go: typeCheck"]}
{"id": "C18", "title": "Accepted matches are exhaustive", "statement": "A match statement that is accepted has exactly one case for every member of the enum and no other, each case naming as many values as the member has; so whatever value is matched, exactly one case applies.", "quantifier": "every enum, every list of cases and every value of the enum", "why_tests_cant": "All orders, omissions and duplicates of cases.", "anchors": ["typecheck.go: opMatch case of typeCheck, typeCheckCase"]}
{"id": "C19", "title": "Match statements run the matching case", "statement": "Running an accepted match statement evaluates the matched expression exactly once and runs exactly the block of the case whose member built the value, with each case variable bound to the corresponding value given at construction.", "quantifier": "every enum, every value, every list of case blocks and every program state", "why_tests_cant": "The lowering works by tags and field offsets; a swapped tag or offset shows only for particular members.", "anchors": ["semantic.go: lowerMatchStatement, generateStructConstructor", "codegen.go: genConstructor"]}
{"id": "C20", "title": "Range loops visit the documented values", "statement": "for v in a .. b runs its body for a, a+1, ..., b-1 in order when a <= b; when the range decreases it runs for a-1, ..., b; afterwards the loop stops.", "quantifier": "every pair of bounds and every loop body that does not assign the loop variable", "why_tests_cant": "All pairs of integers; tests use a few.", "anchors": ["semantic.go: lowerForStatement", "install/examples"]}
{"id": "C21", "title": "Array loops visit every element once, evaluating the array once", "statement": "for x in e runs its body for every element of the array in index order, and evaluates the expression e once.", "quantifier": "every array expression, every array content and every loop body", "why_tests_cant": "Effects of the array expression and of the body interact; tests use pure expressions.", "anchors": ["semantic.go: lowerForStatement"]}
{"id": "C22", "title": "Integer literals keep their value", "statement": "Every integer literal the compiler accepts, with or without a minus sign, evaluates at run time to the number written; literals that do not fit are rejected.", "quantifier": "every decimal or hexadecimal literal text", "why_tests_cant": "Boundaries near 2^62 and 2^63; all literals.", "anchors": ["typecheck.go: opLit case", "semantic.go: foldConstants", "asm.go: taggedIntOp", "codegen.go: genExpr opLit"]}
{"id": "C23", "title": "Closures see the captured values", "statement": "A closure's environment holds every variable of enclosing functions that its body uses, so inside the closure each such variable has the value it had when the closure was created.", "quantifier": "every anonymous function body", "why_tests_cant": "All nestings of expressions and scopes; a missed sub-expression only shows when a variable occurs nowhere else.", "anchors": ["closures.go: freeVarChecker, rewriteAnonFnAndClosures, clRewriteFreeVars"]}
{"id": "C24", "title": "Integer arithmetic", "statement": "The machine code for an integer expression computes the value that two's complement 63-bit arithmetic gives for + - * / & | ^ ~ unary minus << and >>, whatever the operands.", "quantifier": "every expression over these operators, literals and variables, of any depth, and every value of the variables", "why_tests_cant": "2^126 operand pairs per operator and unbounded nesting.", "anchors": ["codegen.go: genExpr, tag, untag, ins", "asm.go: taggedIntOp"]}
{"id": "C25", "title": "Comparisons and booleans", "statement": "The machine code for == > >= < <= gives true exactly when the mathematical relation holds between the integer operands, and not/and/or give the boolean result of their operands.", "quantifier": "every boolean expression of any depth and every value of the variables", "why_tests_cant": "All operand values including the extremes, all nestings.", "anchors": ["codegen.go: genExpr"]}
{"id": "C26", "title": "Expression code keeps the stack and the variables", "statement": "Running the code of any expression leaves the stack pointer, the frame pointer and every variable and memory cell of the frame as they were, so evaluating a sub-expression cannot disturb its siblings.", "quantifier": "every expression and every machine state", "why_tests_cant": "Unbounded nesting of pushes and pops.", "anchors": ["codegen.go: genExpr, save, restore, function.incSp, decSp"]}
{"id": "C27", "title": "Calls receive their arguments", "statement": "At every call the i-th parameter of the callee receives the value of the i-th argument, arguments being evaluated left to right, whatever calls and operators occur inside the arguments.", "quantifier": "every call expression, with any nesting of calls and operators inside its arguments", "why_tests_cant": "Register clobbering depends on the exact nesting; tests cover few nestings.", "anchors": ["codegen.go: genFnCall, function.SpillRegisters, RestoreRegisters, RegisterInUse, genExpr"]}
{"id": "C28", "title": "Calls happen on an aligned stack", "statement": "At every call instruction the stack pointer is a multiple of 16, as the C ABI demands, and after the call it is back where it was.", "quantifier": "every function and every call in it, at any nesting depth", "why_tests_cant": "Alignment depends on the parity of everything pushed so far.", "anchors": ["codegen.go: genFnCall, genFunc, genFnEntry, function.incSp, decSp"]}
{"id": "C29", "title": "Array accesses are bounds checked exactly", "statement": "An array access with an index from 0 to length-1 reads or yields the address of that element and any other index, negative or too large, stops the program with an index-out-of-bounds error; no other memory is touched.", "quantifier": "every array length, every integer index", "why_tests_cant": "All 2^63 indices per length.", "anchors": ["codegen.go: genExpr opArray, genIoobTrampoline"]}
{"id": "C30", "title": "Variables do not alias", "statement": "Within one function every parameter and every local variable has its own stack slot inside the frame; writing one never changes another, and saved temporaries never overlap them.", "quantifier": "every function with any number of parameters, variables and nested scopes", "why_tests_cant": "All combinations of scopes and shadowing.", "anchors": ["codegen.go: genFunc, genFnEntry, save, restore"]}
{"id": "C31", "title": "Control flow is preserved", "statement": "The generated code of if/elseif/else, while, ternary, assignment and return executes the same statements in the same order with the same variable contents and the same returned value as the source program.", "quantifier": "every function body over integers and booleans, every input, every execution that terminates", "why_tests_cant": "All nestings and all executions.", "anchors": ["codegen.go: genStmtList, genIfElseIfElseStmts, genWhileStmt, genAssignStmt, genReturnExpr, genExpr", "asm.go: newLabel, label"]}
{"id": "C32", "title": "Peephole optimisation preserves behaviour", "statement": "Removing move pairs and move/push pairs does not change what generated code computes.", "quantifier": "every instruction sequence the code generator emits and every machine state", "why_tests_cant": "Depends on which registers are still needed afterwards for every sequence.", "anchors": ["peep.go: peephole.ins, write"]}
{"id": "C33", "title": "Labels are unique", "statement": "No two labels defined in one output file are equal and every jump refers to a defined label.", "quantifier": "every program", "why_tests_cant": "Depends on how many labels any program needs.", "anchors": ["asm.go: gasWriter.newLabel, label", "codegen.go: genIfElseIfElseStmts, genWhileStmt"]}
{"id": "C34", "title": "String literals keep their contents", "statement": "The bytes and the length stored for a string literal are those its text denotes, for every literal the lexer accepts.", "quantifier": "every string literal text", "why_tests_cant": "All contents, including escapes and newlines.", "anchors": ["asm.go: gasWriter.stringLit, flush", "lex/lex.go: lexString, isEscape"]}
{"id": "C35", "title": "Constructors and field access agree", "statement": "Reading field f of a value built by a struct constructor gives the argument passed for f, and writing one field changes no other; an enum value carries the tag of its member.", "quantifier": "every struct and enum declaration, every list of argument values", "why_tests_cant": "All declarations and all offsets.", "anchors": ["codegen.go: genConstructor, genExpr opDot", "semantic.go: processTopLevelTypes, generateStructConstructor"]}
{"id": "C36", "title": "GC maps list exactly the initialised pointer variables", "statement": "The GC map at every call lists the slots of all pointer-valued variables in scope that have been assigned, and no slot that may not have been assigned.", "quantifier": "every function body and every call in it", "why_tests_cant": "All nestings of scopes and branches.", "anchors": ["gc.go: GcState.OpenScope, CloseScope, Add, Remove, Snapshot", "codegen.go: genStmtList, genAssignStmt, genFnCall"]}
{"id": "C37", "title": "The collector frees exactly the unreachable objects", "statement": "A collection keeps every object reachable from the roots with its contents unchanged, frees every other object exactly once, and leaves no object marked.", "quantifier": "every heap graph (including cycles and shared objects), every root set", "why_tests_cant": "All finite graphs.", "anchors": ["install/lib/gc.clara: gc, gcMark, gcMarkPointer, gcSweep"]}
{"id": "C38", "title": "Object headers", "statement": "The type id read back from an object's header is the one it was allocated with, before and after marking and unmarking, and marking never changes whether the object is read-only; read-only objects are never marked or freed.", "quantifier": "every type id the header has room for and every sequence of mark/unmark operations", "why_tests_cant": "All ids and bit patterns.", "anchors": ["install/lib/gc.clara: setMark, clearMark, isMarked, isReadOnly, typeId", "install/lib/mem.clara: claralloc", "gc.go: readOnlyGcHeader"]}
{"id": "C39", "title": "Integers and booleans are never taken for pointers", "statement": "The collector's test for 'is a pointer' fails for every integer and boolean value and succeeds for every 8-byte aligned address above 1024.", "quantifier": "every 63-bit integer, both booleans, every aligned 62-bit address", "why_tests_cant": "All 2^63 values.", "anchors": ["install/lib/gc.clara: isReal", "codegen.go: genExpr opLit, genToTaggedInt"]}
{"id": "C40", "title": "Type information table matches type ids", "statement": "The entry of the type information table at an allocated type id describes the type the id was given to, in particular which of its fields are pointers; the table has an entry for every id in use.", "quantifier": "every program (every sequence of type declarations and constructor uses)", "why_tests_cant": "All orders of declarations.", "anchors": ["gc.go: GcTypes.AddBuiltins, AssignId", "codegen.go: genTypeInfoTable, genConstructor"]}
{"id": "C41", "title": "Hash map behaves as a map", "statement": "After any sequence of put, get, contains and remove, get returns the value of the last put for that key that was not removed, size is the number of keys present, and resizing changes nothing observable.", "quantifier": "every sequence of operations of any length, every key and value, every hash function with non-negative results that respects key equality", "why_tests_cant": "All histories, all collisions.", "anchors": ["install/lib/map.clara"]}
{"id": "C42", "title": "List functions", "statement": "toList, reverse, map, remove, find, foreach and reduce compute their mathematical counterparts on sequences: toList keeps index order, remove takes out exactly the first match and keeps the order of the rest, find gives the first match, reduce folds from the left, foreach visits in order.", "quantifier": "every list and every argument function", "why_tests_cant": "Lists of every length.", "anchors": ["install/lib/list.clara"]}
{"id": "C43", "title": "String comparison and search", "statement": "Equals holds exactly for equal byte sequences; IndexOf gives the least position at or after the starting position where the substring occurs, or -1; Substring and append give the corresponding slices and concatenations.", "quantifier": "every pair of strings and every non-negative position", "why_tests_cant": "All strings; overlapping partial matches.", "anchors": ["install/lib/strings.clara"]}
{"id": "C44", "title": "Byte buffers", "statement": "Appending strings to a byte buffer of any capacity and converting to a string gives the concatenation of the appended strings, growing as needed. A part of the buffer is given back if it lies inside what was appended, and refused otherwise.", "quantifier": "every initial capacity, every sequence of appends, every position and length", "why_tests_cant": "All capacities including zero, all sizes.", "anchors": ["install/lib/strings.clara: byteBuffer, NewByteBuffer, append, grow, toString, substring"]}
{"id": "C45", "title": "Byte arrays are bounds checked", "statement": "get and set on bytes and byte on strings with an index outside 0..length-1 stop the program instead of touching other memory; within it set then get returns the low 8 bits of the value as a signed byte.", "quantifier": "every length, every integer index and value", "why_tests_cant": "All indices including negative ones.", "anchors": ["install/lib/bytes.clara: get, set", "install/lib/strings.clara: byte"]}
{"id": "C46", "title": "String hashing", "statement": "fnv1a computes the 32-bit FNV-1a hash of the string's bytes, a number from 0 to 2^32-1, with no overflow of 63-bit arithmetic.", "quantifier": "every string", "why_tests_cant": "All strings.", "anchors": ["install/lib/hash.clara"]}
{"id": "C47", "title": "Integer to string", "statement": "toString of an integer is its decimal representation, for every integer including the least one, and the internal buffer is never exceeded.", "quantifier": "every 63-bit integer", "why_tests_cant": "2^63 values.", "anchors": ["install/lib/core.clara: toString"]}
{"id": "C48", "title": "Remainder and binary rendering", "statement": "mod gives the remainder of truncated division; toBinary lists the 63 two's complement digits most significant first, grouped in bytes.", "quantifier": "every 63-bit integer (and every non-zero modulus)", "why_tests_cant": "2^63 values.", "anchors": ["install/lib/core.clara: mod, toBinary"]}
{"id": "C49", "title": "Optional and result values", "statement": "isNone, isSome, filter, orElse, map, peek on option and map, then, peek on result behave as the standard combinators: the function is applied exactly once to the present value and never to an absent or failed one, which passes through unchanged.", "quantifier": "every value and every function", "why_tests_cant": "All values and functions.", "anchors": ["install/lib/functional.clara"]}
{"id": "C50", "title": "Program arguments and environment", "statement": "Parsing a block of NUL-terminated strings yields the strings in order, and an environment entry KEY=VALUE is stored under KEY with everything after the first '=' as the value.", "quantifier": "every list of argument and environment strings", "why_tests_cant": "All strings, including those without '=' or with several.", "anchors": ["install/lib/runtime.clara: parseArgs, parseEnv"]}
{"id": "C51", "title": "Accepted programs do not go wrong", "statement": "A program for which the type checker reports nothing follows the rules of types, and running any of its functions on values of the declared parameter types never uses a value as something that it is not (adding a string, calling a number, reading a field of something that is not that struct, a match without a fitting case); what a function gives is of its declared type.", "quantifier": "every program, every function and arguments, every meaning of operators and external functions, every length of run", "why_tests_cant": "Programs and runs are unbounded.", "anchors": ["typecheck.go: typeCheck", "typecheck.go: typeCheckFuncCall", "semantic.go: processFnType"]}
{"id": "C52", "title": "Type checking ends", "statement": "Type checking of functions ends for every program, also for erroneous ones; an expression checked without errors has been given a type.", "quantifier": "every program", "why_tests_cant": "All trees, including overload chains and field calls that are checked more than once.", "anchors": ["typecheck.go: typeCheck"]}
{"id": "C53", "title": "Declarations stand for what is written", "statement": "When the declarations of a program are accepted, each struct, enum and function has exactly the fields, members, parameters and result whose types are written, under its name and with its constructors; no type, function, member, field or parameter is declared twice; the type checker may rely on the result (hypothesis of C51). Declarations never make the compiler crash, and whether they are accepted does not depend on their order.", "quantifier": "every list of declarations", "why_tests_cant": "Declarations refer to each other in any order, with unbounded nesting of generic types and overloads.", "anchors": ["semantic.go: processTopLevelTypes", "semantic.go: instantiateType", "semantic.go: processFnType", "semantic.go: generateStructConstructors", "ast.go: typeName"]}
{"id": "C54", "title": "Programs that follow the rules are accepted", "statement": "A program whose functions can be given types by the rules of the language (every name visible, operators, calls, matches and assignments used at the types they are for, blocks of functions with results end) is accepted by the type checker without errors, and its expressions are given the types of the rules.", "quantifier": "every program and every derivation by the rules", "why_tests_cant": "A wrongly refused program shows only if somebody writes it; scopes, generic calls and nesting are unbounded.", "anchors": ["typecheck.go: typeCheck", "typecheck.go: typeCheckFuncCall", "ast.go: isTerminating"]}
{"id": "C55", "title": "Syntax errors are where they are", "statement": "Syntax errors are reported for tokens of the input, in their order and at most one for each; what is reported for the beginning of an input does not depend on the rest; no error is reported inside the beginning of a program; the token that is named is the wrong one and not one that would have been right; after an error in an argument the errors of later arguments are reported too.", "quantifier": "every token sequence", "why_tests_cant": "Erroneous inputs are unlimited in kind and position; recovery from one error influences the next.", "anchors": ["parse.go: need", "parse.go: match", "parse.go: syntaxError", "parse.go: parseExpr"]}
{"id": "C56", "title": "Walks over the tree reach everything", "statement": "A walk over any tree the parser makes from any number of files does not panic and calls its function exactly once for each node: after its children, or before them unless a node above has been refused; the calls with nil come where a node is left. The pass that folds minus signs into integer literals does not panic, changes exactly the literals with a minus before them, and reports exactly the literals that are then outside of 64 bits, each once; walks over the tree after it reach everything too.", "quantifier": "every token sequence of every number of files; every answer of the function for each node", "why_tests_cant": "A kind of node with a part that the walk forgets shows only in programs that have something in just that part; trees are unlimited.", "anchors": ["walk.go: Walk", "walk.go: WalkPreOrder", "walk.go: WalkPostOrder", "semantic.go: foldConstants", "main.go: Compile"]}
{"id": "C57", "title": "Code generation does not panic", "statement": "The code generator makes code for a function, without a panic and whatever has been compiled before, exactly when the function has at most six parameters, together at most 4096 parameters and variables, every call has at most six arguments, the operators for integers have integers at both sides (comparisons too), literals have 64 bits, and no call of a value that is not a name is inside an argument that follows an argument with a pointer. A program with any other function gives no output.", "quantifier": "every function and program given to the code generator; every state of the compiler", "why_tests_cant": "Panics depend on the nesting of calls and the types of arguments passed before; the functions are unlimited.", "anchors": ["codegen.go: genFunc", "codegen.go: genExpr", "codegen.go: genFnCall", "codegen.go: SpillRegisters", "codegen.go: RestoreRegisters", "codegen.go: tagFor", "gc.go: Remove", "asm.go: displace"]}
{"id": "C58", "title": "Source files are read as the programs written in them", "statement": "Every list of source files is read to the end, each file on its own: nodes and errors are those of the files in order. A file with a wrong word contributes its one error and no nodes. Files whose texts are those of programs, with any blanks, line ends and comments between the words, give exactly the trees of these programs and no error; every program with proper names and literals has such a text; files without errors are texts of programs. Layout changes neither trees nor errors but for the places in them.", "quantifier": "every list of files (any bytes), every program tree, every layout, every Unicode table", "why_tests_cant": "Texts, layouts and programs are unlimited; the claim joins lexer, filter, parser and the loop over files.", "anchors": ["main.go: lexAndParse", "main.go: Compile", "lex.go: lexer", "parse.go: Parser.Parse"]}
{"id": "C59", "title": "The passes after the parser take source files for the programs written in them", "statement": "The tree of a program is taken by the passes after the parser for exactly what the program means: every child of a node is looked for where the parser put it, and foldConstants changes only literals with a minus sign. So files with the text of a good program whose bodies follow the typing rules are accepted by lexer, parser, declarations and type checker, and files accepted by all of them do not go wrong when they run.", "quantifier": "every program tree, every list of files with its text, every layout, every execution", "why_tests_cant": "It joins all passes of the front end for unlimited texts; a test sees one program at a time.", "anchors": ["ast.go: Node", "semantic.go: processTopLevelTypes", "semantic.go: foldConstants", "typecheck.go: typeCheck", "main.go: Compile"]}
{"id": "C60", "title": "Function literals are moved to the top level", "statement": "The pass over the typed tree ends for every program. Each function literal, at any depth, is replaced by the function made of this very literal or by the closure of it with its captured variables, inner literals first; exactly one function is added to the program per literal, each with a new id; each call of a value becomes a call of invokeDynamic with the value before the arguments; nothing else changes. No literal and no call of a value is left, neither in the functions of the program nor in those added, so a second run would change nothing.", "quantifier": "every tree with callees, every nesting of literals, every order of captured variables", "why_tests_cant": "Trees and nestings are unlimited, and the functions added while the pass runs are never visited by it; a literal left over shows only when code is generated for it.", "anchors": ["closures.go: rewriteAnonFnAndClosures", "ast.go: isLocalFn", "ast.go: isNonGlobalFnCall", "walk.go: WalkPostOrder", "main.go: Compile"]}
{"id": "C61", "title": "Calls of function values reach the function", "statement": "A call of a function value goes through invokeDynamic of the runtime library. From its entry, with the value and the arguments in the argument registers, the generated code tells closures from functions by the header word before them, runs the closure's function with the closure's environment before the arguments, or the function itself with the arguments, and returns to the caller with what that function returned in rax, the caller's stack, frame pointer and memory as that function leaves them, though invokeDynamic itself is declared to return nothing.", "quantifier": "every program with these library functions, every value, arguments, memory and stack, every function called and every way it ends", "why_tests_cant": "The result passes through a function that returns nothing only because its epilogue leaves rax alone; this has to hold for every callee, every memory and every way the call ends.", "anchors": ["install/lib/runtime.clara: invokeDynamic", "install/lib/runtime.clara: isClosure", "closures.go: rewriteAnonFnAndClosures", "codegen.go: genFnCall", "codegen.go: genFnExit", "asm.go: fnStart"]}
{"id": "C62", "title": "Copies of trees are equal and apart", "statement": "copyNode ends exactly for nodes from which no way down is endless. It changes nothing that was there; the copy is the same tree, without the nil entries of its lists; its nodes are exactly those newly made, each met once, even where the original meets a node more than once. Whatever is changed in the copy later leaves the original as it was, and the other way round.", "quantifier": "every memory of nodes, with sharing, nil and cycles, every node, every later change", "why_tests_cant": "Aliasing shows only when a later pass changes a node in place, which depends on the order of all passes; trees and sharing are unlimited.", "anchors": ["ast.go: copyNode", "ast.go: Node", "closures.go: rewriteAnonFnAndClosures", "semantic.go: lowerForStatement"]}
{"id": "C63", "title": "Assignments write the place on the left", "statement": "In every program the type checker accepts, the left side of each assignment, however deep, is a variable, a field or an element. The code of the assignment computes the value, then the place, and writes the value there: one variable, one field or one element changes and nothing else.", "quantifier": "every program, every assignment in it, every state of registers, stack and heap", "why_tests_cant": "A write to a wrong place shows only if that place is read later; the checker's rule for what may be assigned to is one switch over all kinds of nodes, with any expressions below.", "anchors": ["ast.go: isAddressable", "typecheck.go: typeCheck", "codegen.go: genAssignStmt"]}
