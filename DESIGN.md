# Formal model of the Clara compiler and its runtime library

Subject: `/repo` (g-dx/clara), a compiler written in Go for the Clara language, together with the
runtime library written in Clara (`install/lib`). The model is in Rocq (Coq 8.16.1), in `rocq/theories`.

## Approach

* Every modelled Go function is a total Gallina function with the same control structure; every modelled
  Clara library function is a Gallina function over an explicit integer type of 63-bit wrap-around
  arithmetic (the semantics the code generator implements, itself proved).
* Loops and recursion that Gallina cannot see terminate take fuel and return an explicit `OutOfFuel`
  result. Theorems either exclude that result by proving enough fuel always exists, or state that no
  amount of fuel is enough (a divergence finding).
* A Go panic, an x86 trap, a library `panic()` are explicit results, never default values.
* Go pointers whose identity matters (symbols, type parameters) are numbers; maps are association lists.
* Oracles (Unicode tables, hash functions, callbacks) are ordinary function arguments, universally
  quantified in the theorems. There are no axioms, no `Variable`/`Hypothesis` outside sections.

File conventions: `*Model.v` definitions with citations to `/repo`; `*Spec.v` independent specification
(nothing from the model but its data types); `*Proofs.v` lemmas; `Prop*.v` final theorems, each closed by
`exact`, with `Print Assumptions` and a concrete example that meets its hypotheses.

## Plan per property

| id | modelled | how it is stated and proved |
|----|----------|-----------------------------|
| C01 | whole lexer over byte lists incl. UTF-8 decoding; Unicode tables as arguments | concatenation of token texts = input (EOF) or prefix (error); induction on remaining input |
| C02 | same | fuel `length input + 1` always suffices; shape of token list |
| C03 | same | independent per-kind predicate on texts (`tok_text_ok`), plus munch condition on the following character |
| C04 | linePos/lineNumber/emit/errorf | line = 1 + newlines before start (proved); uniform column refuted, exact column formula proved |
| C05 | lexer + space/comment filter in lexAndParse | two texts whose layout-free decomposition is equal give equal filtered streams |
| C06 | whole parser with explicit position, error list, discard flag, EOF panic | termination with linear fuel; no out-of-range access |
| C07 | parseExpr and all prefix/infix parsers | `parse (print e) = e` for every tree; printer inserts parentheses by precedence table |
| C08 | rest of the parser | round trip for statements and declarations |
| C09 | same | refuted (input ending where an expression must start); proved when the last token is not one that an expression must follow |
| C10 | SymTab | refinement to a stack of finite maps over operation sequences |
| C11 | Type, MatchesImpl | equivalence relation + characterisation |
| C12 | PolyMatch, substituteType, matchFuncCallByType | substitution instance of parameters matches arguments |
| C13 | findUnboundTypeParameters | refuted for function-typed results; proved for the others |
| C14 | matchFuncCallBySymbol, overload chains with node mutation | first match; refuted with witnesses for bindings left behind by failed candidates |
| C15 | substituteType on a type graph (store of type nodes) | divergence for a self-referring struct for every fuel; termination on acyclic graphs |
| C16 | AsmName of types and functions over character lists | injective on a stated class; collisions outside it exhibited |
| C17 | isTerminating over statement trees | big-step semantics with returns; terminating body never completes normally |
| C18 | opMatch checks | accepted => bijection between cases and members |
| C19 | lowerMatchStatement, constructors | big-step semantics of source match vs lowered if-chain over a heap |
| C20 | lowerForStatement for ranges | trace of body executions; refuted for decreasing non-zero bounds and negative..0 |
| C21 | lowerForStatement for arrays | visits all elements for pure array expressions; single evaluation refuted |
| C22 | literal check, foldConstants, taggedIntOp | value preserved for accepted literals below 2^62; refuted above |
| C23 | freeVarChecker, clRewriteFreeVars and what replaces a function literal | the walk finds all free variables that are not only in array indexes; runs of the moved function with the environment end like those of the function in place (simulation, any meaning of operators); refuted for array indexes and equal names |
| C24-C26 | genExpr + x86 subset semantics | compiler correctness by induction on expressions, for code placed anywhere in memory |
| C27 | genFnCall | arguments correct when no later argument divides/shifts past the clobbered register; refuted otherwise |
| C28 | sp bookkeeping of genFnCall/save/restore/genFunc | invariant over generated code |
| C29 | opArray | exact read / trap characterisation |
| C30 | slot assignment of genFunc | injective, within frame |
| C31 | statements, labels, jumps | simulation of big-step source semantics by machine code |
| C32 | peephole.ins/write, all generated code | optimised stream simulates the original up to dead registers, for every generated program with fitting calls and every run in which functions return to their calls |
| C33 | newLabel, label emission | counter invariant |
| C34 | flush/Unquote/.ascii | emitted bytes = denotation; refuted for raw newlines |
| C35 | genConstructor, opDot | read-over-write on the constructed object |
| C36 | GcState | refuted: CloseScope does not pop; exact description for scopes without inner scopes |
| C37 | gcMarkPointer/gcSweep over a heap graph and block list | marked = reachable; sweep = filter |
| C38-C39 | header arithmetic over 64-bit words | bit-level lemmas |
| C40 | GcTypes and genTypeInfoTable | table position = id |
| C41 | map.clara over a heap of entries | refinement of a finite map for all operation sequences |
| C42 | list.clara | equality with list functions |
| C43-C48 | strings, bytes, byteBuffer, hash, core | functional correctness over byte lists and 63-bit integers |
| C49 | functional.clara | equations with explicit call traces |
| C50 | parseArgs/parseEnv over a byte memory | decoding of NUL terminated strings |
| C51 | typecheck.go's walk over functions, processFnType, calls by symbol and by type | rules of types for resolved trees and a run with an explicit Wrong; checked without errors => rules (soundness); rules => never Wrong (heap typing, functions and closures as values); refuted with four constructs that the checker lets pass |
| C52 | same | enough fuel exists for every program; a result without errors has a type |
| C53 | semantic.go's passes over declarations, struct constructors | meaning of written types as a relation (`denotes`); accepted => every declaration stands for what is written, nothing twice, C51's hypothesis holds; good declarations are accepted; two functions share a key only if names and parameter types agree up to results of function types (injectivity of the spelling); refuted: crash, order, equal functions told apart |
| C54 | same model as C51 | rules of types for trees as written (`CheckRules.v`, declarative, independent of the checker); rules => no errors and the type of the rules (completeness); with C53: good declarations whose bodies follow the rules are accepted and do not go wrong (`DeclTidy.v`, `PropWritten.v`); refuted: function literal with an expression body called in place |
| C55 | ParseModel | simulation of two runs on inputs with a common beginning; position invariant (reported tokens are a subsequence of what is read); with C08: no error inside the beginning of a program; refuted: a missing expression is reported at the token after the wrong one |
| C56 | WalkModel | `reach`/`there` (parts of nodes, independent of the walk); shape invariant of the parser's trees (`WalkParse.v`) => no panic, each place once, order, nesting of the calls with nil; folding as a relation `folded` and an exact account of the reports |
| C57 | GenModel | `has_code` (declarative, over the typed tree); code made => fit with the stack and the GC roots as at the start of each part; fit => no step panics, roots as before up to order; slots counted |
| C58 | FileModel, LexModel, ParseModel | `words_of` (lexical grammar only) and `write`; the parser does not look at positions and only appends to the tree it is given (`FileParse.v`); with C03, C05, C08, C09 from bytes to trees and back |
| C59 | ReadModel with FileModel, WalkModel, DeclModel, CheckModel | `mean_program` on program trees, without nodes; reading does not look at positions, and folding commutes with reading (`ReadProofs.v`, by one induction over expressions, statements and branches); names of a file have no bracket (`ReadNames.v`), so C53 needs no condition on names; `puts` (`ReadTypes.v`): a relation between a tree and its typed form, rule by rule |
| C60 | HoistModel (with ClosModel) | `became`: a relation between a tree and what it should become, given the functions added, without the walk; `flat`: no literal and no call of a value left; induction over trees with the state threaded, for every extension of the list of added functions; renaming of captured variables keeps `flat` |
| C61 | DynModel with GenModel, GenSpec | statements about the machine from the entry of invokeDynamic to the return, in terms of running the called function; `GenTail.v`: what a function that returns nothing leaves in rax (`tail_run`), by the induction of GenCorrect; then the interpreter is run on the four library functions for all values (`DynProofs.v`) |
| C62 | CopyModel: a memory of nodes with pointers | `tree_at` reads a tree without pointers, `cells_of` lists the cells met; trees depend on their cells only; induction on height with memory growing |
| C63 | CheckModel and CheckSpec; GenModel, GenSpec | `within` lists the parts of a checked tree at any depth; each part of a typed tree is typed, so each assignment satisfies the rule for assignments; CheckPlaces.v: induction over the walk of the checker, without types; machine: `var_write`, `elem_write` from the correctness of statements, and `S_assign_call` (GenAssign.v) for the code of an assignment to a call, which has no meaning in GenSpec |

## What is modelled

| model file | code | simplifications |
|------------|------|-----------------|
| LexModel | lex.go whole; space/comment filter of main.go | Unicode classes are arguments |
| LibModel and the map/list/string/buffer models | install/lib: map, list, strings, bytes, byteBuffer, hash, core, functional, program arguments | Clara ints are 63-bit; heap objects as Gallina values where aliasing cannot be seen, as heaps where it can |
| X86 | the instructions the code generator emits, registers, flags, byte memory read as words | addresses of code are positions in the program, so code and data do not overlap; `call` of an external routine is a relation |
| GenModel, GenProgram | codegen.go: genFunc, genStmtList, all statements, genExpr, genFnCall, constructors, save/restore, labels, trampoline, asm.go operands | closures appear as calls through a pointer; GC maps after calls are one word that is skipped; the allocator is a contract (`alloc`): it returns memory the program may use |
| ParseModel | parse.go, all of it | the position is the list of tokens left; errors as token and what was expected, not as text; attribute names are an argument; fuel for loops and recursion |
| WalkModel | walk.go, semantic.go foldConstants, its pass in main.go 100-106 | a node is known by its place in the tree; the function called by a walk leaves the tree as it is, except foldConstants; struct constructors are not yet in the tree |
| FileModel | main.go 76-91, 172-200 (lexAndParse and the loop over files) | a file is its bytes; opening files is left out |
| ReadModel | ast.go 137-152 with semantic.go 85-448 and typecheck.go 14-690: which child of a node is taken for what | function literals with type parameters left out; an expression with an unknown type is taken for an unknown name (both are errors); foldConstants placed before the declarations, which it does not change; string literals are unquoted here, not in the code generator |
| DynModel | install/lib/runtime.clara 108-131, gc.clara 114-121, as input of the code generator (GenModel) | trees written by hand, as the checker leaves them; unsafe is addition (codegen.go 359-364); the header word of functions (asm.go 388) is a hypothesis on memory |
| CopyModel | ast.go 14-25, 324-358 | tokens, symbols, types and scopes are numbers; the fields of the node copied are read once |
| HoistModel | main.go 120-125, closures.go 10-97, ast.go 140-155 with walk.go 9-119: the pass that moves literals and makes calls of values dynamic, and its loop over the program | symbols made for a literal are a function of its id (`names_of`), the order of captured variables (a Go map) is any; types, and the structs made for closures, left out (types: InfoModel); copyNode is the identity on trees: the node copied is overwritten at once |
| ScopeModel | symtab.go SymTab | maps as association lists |
| TypeModel, TypeGraph | types, Matches, PolyMatch, substituteType, unbound parameters, matchFuncCall*, AsmName | types as trees for matching; a graph of type nodes for substitution and instantiation; printf/debug/unsafe calls and the argument limit are left out |
| LowerModel | ast.go isTerminating, semantic.go lowerForStatement, lowerMatchStatement, rewriteArrayLiteralExpr and the helpers in ast.go | variables are numbers; new variables are the next number; types of the new nodes are arguments (`consts`) |
| MatchModel | typecheck.go opMatch, typeCheckCase; declaration of constructors in semantic.go | only what concerns cases: names, counts, tags |
| LitModel | lexer's int literals, strconv.ParseInt as used in typecheck.go, foldConstants, taggedIntOp | ParseInt re-modelled from its documentation |
| GcModel | install/lib/gc.clara and the block functions of mem.clara, readOnlyGcHeader of gc.go | over byte memory; Clara statements written as functions on memory; the closures' type info (FunctionType) panics as in the code; whether to collect is not modelled; calloc's result is an argument, free an arbitrary function |
| RootSpec (no new model) | GC maps: GenModel's open_scope, close_scope, add_root, remove_root, gc_map, gen_maps | ways through a body let every condition go either way and list all calls of an expression; maps are read back from the emitted data |
| ClosModel | closures.go, walk.go | trees after type checking, without types and tokens; symbols with identity, name, address and flags; the order of captured variables (a Go map) is arbitrary; more than six captures (panic in the code generator) not modelled; nested literals are those already replaced |
| InfoModel | constructors added to the tree (semantic.go 147-172, 618-665; closures.go 24-29), gc.go GcTypes, codegen.go genTypeInfoTable | declarations with resolved types; accepted programs (no errors from earlier passes); data labels are the lists they denote |
| CheckModel | typecheck.go 14-690, 896-917; semantic.go 335-398 for function literals | names of types are already types; the rewritten tree is built anew with resolved names; scopes are lists of frames; notes (`Odd`) mark what the code accepts without settling types, with no influence on errors |
| DeclModel | semantic.go 84-222, 224-333, 335-398, 401-448, 609-665; main.go stdSyms; ast.go typeName | types are trees; type parameters are numbers; bodies are functions of what type names stand for in their scope; errors without tokens |
| StrModel | strconv.Unquote as used in asm.go flush; the assembler's .ascii escapes | numeric escapes of Unquote count as errors (the lexer lets none through); the assembler's rules are written from its documentation |
| PeepModel | peep.go, all of it | operands are indexed as the code does; instructions with other operand counts are never joined |

The meaning of lowered programs (GenSpec `eval`, `exec_*`) is an interpreter with fuel and call depth, proved
to agree with the machine run of the generated code (C31). C17 and C19-C21 use the same interpreter.

Conditions used in several theorems: `safe` (expression avoids the known defects: division or shift in a late
argument, effects of C27), `room` (enough stack below the frame not to wrap around address 0), `linked`
(labels resolve to the code placed in memory). C28 assumes that what is called returns with the stack pointer it was
called with; the exits of generated functions are proved to provide this. Library theorems bound histories by 2^59 operations
and strings by 2^60 bytes so that sizes are ints.

## Findings (each a `_refuted` theorem with a witness)

C04 columns differ between first and later lines; C13 function-typed results are not searched for unbound
parameters; C14 failed candidates leave bindings behind; C15 substitution diverges on self-referring structs; C16 label
collisions between types; C07 unary minus binds like the binary one, not as the table of precedences says; C08 `return ~x` is an error, statements, fields and external functions run into what follows them; C09 a declaration cut off by the end of the file after a token that an expression must follow is dropped without an error; C20 decreasing ranges other than to a literal 0 do nothing, `-3 .. 0` does nothing, the end is
re-evaluated; C23 the index of an array variable is not searched for variables, captured fields and variables of one name clash; C22 literals from 2^62 wrap and a leading zero means base 8; C21 the array expression is evaluated again and again; C24 shift counts are taken modulo 64; C25 and, or always evaluate both operands; C27 division or shift in a later
argument destroys an earlier one; C33 a function `asm_entrypoint`; C34 a line end in a literal makes the compiler panic, the length of a literal that is not UTF-8 is wrong; C36 scopes closed are not dropped, array loop variables and saved values are in no GC map; C38 type ids from 2^15 are read back negative; C40 an enum with a type parameter of its own name makes the compiler panic; C41 negative hashes; C43 empty substrings; C44
capacity 0; C45 negative indexes; C51 errors in ternaries and array literals are lost, function values keep open type parameters, fields of a function are those of its result, calls of functions named printf or debug are not checked; C53 a struct whose constructor has the name of a type crashes the compiler, an enum with its own name as type parameter has ill-typed constructors, functions are told apart by the spelling of their parameter types, a function may have the name of a member only if it comes later; C54 a function literal with an expression body cannot be called where it is written; C55 a missing expression is reported at the token after the wrong one; C57 comparisons of anything but integers, more than six parameters, arguments or fields, and a called result in an argument after a pointer argument make the code generator panic; C58 a file that ends where an expression has to follow is accepted without what was begun; C61 a function value cannot be called with six arguments, as the value takes one of six registers: the code generator panics; C62 a copy of a node has no attributes; C63 calls that give structs or arrays, and names of functions, may be assigned to: the first word of the object that the call returns is overwritten.

## Not modelled

The Go runtime and standard library (except where a function is re-modelled and cited), gcc/gas and the
linker, libc (printf, malloc/free beyond their contract), real x86 beyond the modelled instruction subset,
AST/ASM debug printing, terminal colours, command line handling, `install/init/*.c`.

## Seeded log

Each line of `seeded/LOG.jsonl` is one edit of a definition in a scratch copy. `theorems_failed`: property
theorems whose proof no longer goes through, measured by rebuilding (a theorem counts as failed when its own proof or
a lemma it is closed with fails). `broken_proofs`: the lemmas that failed first. `theorems_tightened`: theorems
changed because of the attempt.

## Trusted base

Coq's kernel. `Print Assumptions` after every property theorem prints "Closed under the global context": no
axioms are used, neither from the standard library nor others. What remains is the correspondence between the model
and the Go/Clara text, which is by reading; every definition cites file and lines.
