{"id": "C01", "title": "Immediate objects survive encoding and never alias another type", "statement": "Boxing a boolean, a 24-bit fixnum, a character, the empty list, a symbol index or the eof object into a machine word and unboxing it again yields the same value; words built with two different immediate tags are never equal; and no immediate is ever mistaken for a heap pointer once a heap exists.", "quantifier": "every payload in range, every pair of tags, every heap position and heap size the runtime can create", "why_tests_cant": "there are 2^24 payloads per tag and arbitrarily many heap placements; tests sample a few", "anchors": ["0.sf: isimm, getimmu, getimms, mkimm, obj_from_bool, is_bool_obj, FIXNUM_ITAG..EOF_ITAG", "6.sf: notobjptr/isobjptr, obj_from_size"]}
{"id": "C02", "title": "Fixnum arithmetic is exact in range and wraps modulo 2^24 when boxed", "statement": "For every pair of fixnums fx+ and fx- (and the bitwise operations) return the mathematical result whenever it fits in -2^23..2^23-1 and otherwise, once stored in an object, the representative of that result modulo 2^24; none of these operations executes undefined C behaviour.", "quantifier": "all pairs of fixnums", "why_tests_cant": "2^48 operand pairs; boundary behaviour differs from ordinary behaviour", "anchors": ["0.sf: fx+ fx- fxlogand fxlogor fxlogxor fxabs, mkimm, getimms"]}
{"id": "C03", "title": "Fixnum multiplication never executes undefined behaviour", "statement": "(fx* x y) is defined (no C signed overflow) for every pair of fixnums and gives the product modulo 2^24 when boxed.", "quantifier": "all pairs of fixnums", "why_tests_cant": "only operand pairs whose product leaves 32-bit int expose the problem", "anchors": ["0.sf: fx* (C int multiplication), obj_from_fixnum"]}
{"id": "C04", "title": "Fixnum division obeys the division law", "statement": "For every fixnum x and non-zero fixnum y, x = y*(fx/ x y) + (fx% x y), |fx% x y| < |y|, and the remainder has the sign of x; division by zero is the only undefined case.", "quantifier": "all fixnum pairs with non-zero divisor", "why_tests_cant": "sign combinations and the minimum fixnum need every pair, not samples", "anchors": ["0.sf: fx/ fx%"]}
{"id": "C05", "title": "Boxing and unboxing of intermediate fixnums is unobservable", "statement": "A fixnum expression computes the same value whether the compiler keeps its intermediate results as C ints or boxes each of them into an object.", "quantifier": "all fixnum expressions and inputs", "why_tests_cant": "needs every expression shape together with every overflow position", "anchors": ["5.sf: unbox-values", "0.sf: obj_from_fixnum, fixnum_from_obj, fx+"]}
{"id": "C06", "title": "Garbage collection preserves everything reachable", "statement": "After any collection every register and global root denotes an object graph isomorphic to the one it denoted before: same block sizes, same immediate words, same native payloads, same sharing and cycles; distinct objects stay distinct.", "quantifier": "every well-formed heap, every root set, every heap placement, with or without the growth step", "why_tests_cant": "object graphs are unbounded, include cycles and sharing, and collections can strike at any allocation", "anchors": ["6.sf: toheap2, relocate, cxm_hgc, cxroot_t"]}
{"id": "C07", "title": "Native finalizers run exactly once, and only for dead objects", "statement": "A collection calls the deallocator of a native object (string, flonum, port) if and only if that object is unreachable, exactly once, with its own payload.", "quantifier": "every well-formed heap and root set, and every sequence of collections", "why_tests_cant": "double free or leak depends on the precise reachability pattern and heap layout", "anchors": ["6.sf: finalize, relocate, cxm_hgc (he1 = 0 on the growth pass)"]}
{"id": "C08", "title": "A heap reservation always makes the requested room", "statement": "When an allocation asks for n words, after the reservation (with or without a collection and with or without growth) at least n words are free, the heap is at most half full right after a growing or non-growing collection, and the collection itself never overruns either semispace.", "quantifier": "every heap state and every request size", "why_tests_cant": "overruns show up only for particular live sizes near the limits", "anchors": ["6.sf: hreserve, cxm_hgc"]}
{"id": "C09", "title": "The register window is preserved when the register file is compacted or enlarged", "statement": "Moving the current register window to the bottom of the register file keeps every live register's value, never reads or writes outside the register file, and leaves room for the requested number of registers.", "quantifier": "every window offset, register-file size and request", "why_tests_cant": "an out-of-bounds read corrupts nothing visible in most runs, so tests pass", "anchors": ["6.sf: rreserve, cxm_rgc, code-host-prologue, code-host-epilogue", "7.sf: MAX_HOSTREGS"]}
{"id": "C10", "title": "Symbols are equal exactly when their names are equal", "statement": "For every history of interning names (character sequences without NUL), string->symbol returns the same symbol for equal names and, as long as there are at most 2^24 symbols, different symbols for different names; symbol->string gives back the name that was interned; earlier symbols keep their identity when the table grows; interning always terminates.", "quantifier": "every finite sequence of interned names, for every hash distribution", "why_tests_cant": "collisions, wrap-around probing and repeated table doubling combine in unboundedly many ways", "anchors": ["0.sf: internsym, symbolname, hashs, symbol->string, string->symbol"]}
{"id": "C11", "title": "Number printing and parsing are inverse", "statement": "For every fixnum n and radix r in 2..36, parsing the text printed for n in radix r gives back n; the printer's 35-byte buffer never overflows; and parsed values are always within the fixnum range.", "quantifier": "all fixnums and all radices 2..36", "why_tests_cant": "2^24 x 35 combinations; buffer overflow only at extreme values", "anchors": ["0.sf: fixnum->string, string->fixnum"]}
{"id": "C12", "title": "list? terminates and is right on every object graph", "statement": "list? answers true exactly when following cdr from its argument reaches the empty list in finitely many steps, and it terminates even on circular or improper structure.", "quantifier": "every heap, including circular ones, and every argument", "why_tests_cant": "cycles can have any lead-in and period", "anchors": ["0.sf: islist"]}
{"id": "C13", "title": "List primitives compute their functional specification", "statement": "length, reverse, append, list-copy, list-ref, list-tail, last-pair, list->vector, vector->list return the specified sequence for every proper list, allocate no more heap words than they reserved, share exactly the promised tail, and leave existing objects unchanged (reverse! changes only the cdr fields of its argument's pairs).", "quantifier": "every proper list of every length in every heap", "why_tests_cant": "lists are unbounded and may share structure with other live data", "anchors": ["0.sf: length, reverse, reverse!, append/2, list-ref, list-tail, last-pair, list->vector, vector->list"]}
{"id": "C14", "title": "equal? is structural equality on finite data", "statement": "On acyclic data equal? terminates and answers true exactly when the two objects have the same shape, with the same immediates, numerically equal flonums and the same string contents.", "quantifier": "all pairs of acyclic objects in every heap", "why_tests_cant": "needs all shapes and all sharing patterns", "anchors": ["0.sf: isequal"]}
{"id": "C15", "title": "Membership and association searches return the first match", "statement": "memq/memv/member return the first tail whose head matches under eq?/eqv?/equal?, assq/assv/assoc the first matching pair, and #f when nothing matches.", "quantifier": "every proper list and key in every heap", "why_tests_cant": "the implementations pick specialised loops per key type; every list and key must agree with the one specification", "anchors": ["0.sf: memq, ismemv, ismember, assq, isassv, isassoc, iseqv, isequal"]}
{"id": "C16", "title": "String primitives are memory safe and implement their specification", "statement": "make-string, substring, string-append, string-copy, string-fill!, list->string, string->list produce strings with the specified contents and length, keep a terminating NUL after the last character, and never write outside the buffer they allocate.", "quantifier": "all strings and all in-range indices", "why_tests_cant": "off-by-one errors corrupt memory silently", "anchors": ["0.sf: newstring, allocstring, substring, stringcat, dupstring, stringfill, list->string, string->list"]}
{"id": "C17", "title": "String comparison is lexicographic order on contents", "statement": "string=?, string<? and friends compare the full contents of the two strings lexicographically by unsigned character code; equal? on strings agrees with string=?.", "quantifier": "all pairs of strings", "why_tests_cant": "strings that contain NUL characters behave differently and tests do not use them", "anchors": ["0.sf: string=? .. string>=?, isequal (strcmp)"]}
{"id": "C18", "title": "Reading back what was written gives the same datum", "statement": "For every datum built from fixnums, booleans, readable symbols, characters, strings, proper and improper lists, vectors and boxes, writing it and reading the text gives an equal datum.", "quantifier": "every datum of every depth and length", "why_tests_cant": "the datum space is infinite; quoting and delimiters interact", "anchors": ["0.sf: initial-writer", "1.sf: initial-reader, subread-*"]}
{"id": "C19", "title": "Comments never change what is read", "statement": "Inserting whitespace, a line comment, a (nested) block comment or a datum comment between two tokens does not change the datum that is read.", "quantifier": "every input text and every comment text, at any nesting depth", "why_tests_cant": "nesting depth and comment contents are unbounded", "anchors": ["1.sf: initial-reader (whitespace, ;, #|, #; branches)"]}
{"id": "C20", "title": "Reading terminates on every input", "statement": "For every finite input text the reader returns a datum, end-of-file or a syntax error; it never loops and consumes at least one character for each datum.", "quantifier": "every character sequence", "why_tests_cant": "malformed inputs are unbounded", "anchors": ["1.sf: initial-reader, subread, subread-to-terminator, subread-number, subread-string, subread-char"]}
{"id": "C21", "title": "Malformed dotted lists are rejected", "statement": "A parenthesised text is accepted as a dotted list only if exactly one datum precedes the closing parenthesis after a single dot and at least one datum precedes the dot.", "quantifier": "every token sequence between parentheses", "why_tests_cant": "malformed texts are unbounded, tests try only a few", "anchors": ["1.sf: subread-to-terminator"]}
{"id": "C22", "title": "Integer literals are classified by their exact width", "statement": "The width reported for an integer literal (8, 16, 24, ... bits) is the least one in which its value is representable as a signed number, for every sign, digit string and radix; hence a literal is compiled to a fixnum only if it fits.", "quantifier": "every sign, every digit string in radix 2, 8, 10 and 16", "why_tests_cant": "boundary literals exist for each of the widths and radices; leading zeros make the digit strings unbounded", "anchors": ["1.sf: integer-representation-table, integer-representation-width", "0.sf: %const integer"]}
{"id": "C23", "title": "C identifiers generated for Scheme names never clash", "statement": "The mangled C name of a Scheme identifier consists of letters, digits and underscores only, and different Scheme names always get different C names, within and across the name classes (globals, stack functions, labels).", "quantifier": "all pairs of identifier spellings", "why_tests_cant": "names are arbitrary strings; a clash merges two variables silently", "anchors": ["6.sf: c-mangle, gvar-id->c-name", "7.sf: assign-labels!, register-label"]}
{"id": "C24", "title": "Sorting is a stable sort", "statement": "sort-by returns a permutation of its input that is ordered by the given predicate and keeps the relative order of equivalent elements; it terminates and does not change its argument.", "quantifier": "every list and every strict weak order", "why_tests_cant": "all permutations of all lengths", "anchors": ["7.sf: merge-by!, split-by!, sort-by!, sort-by, merge-by"]}
{"id": "C25", "title": "Macro pattern variables are substituted faithfully", "statement": "If a syntax-rules pattern matches a form, instantiating the pattern itself as template with the resulting bindings rebuilds the form, unless the pattern has literals (they come back renamed); a template variable is replaced by exactly what it matched, also under ellipses.", "quantifier": "every legal pattern (with nested ellipses and tail patterns) and every form", "why_tests_cant": "patterns and forms are recursive and unbounded", "anchors": ["2.sf: apply-synrules, compile-syntax-rules"]}
{"id": "C26", "title": "Macro expansion is hygienic: introduced identifiers are fresh", "statement": "Identifiers inserted by a template are renamed to identifiers that differ from every identifier that occurs in the form and its environment; the same template identifier gets the same renaming within one expansion and different renamings in expansions one of which follows the other (expansions side by side may share them).", "quantifier": "every macro, every use site, every history of expansions", "why_tests_cant": "capture shows up only for particular name coincidences", "anchors": ["2.sf: apply-synrules (id-n), make-sid, sid-id, sid-location"]}
{"id": "C27", "title": "Variable analysis caching is transparent", "statement": "Whatever the history of queries and evictions, the cached free-variable and variable-use queries return what the direct computation returns.", "quantifier": "every sequence of queries of any length, across cache trimming", "why_tests_cant": "cache eviction depends on long histories", "anchors": ["3.sf: memoizate-exp-attribute, memoizate-var-attribute, exp-vinfo, exp->free-vars"]}
{"id": "C28", "title": "Free-variable analysis is exact", "statement": "exp->free-vars returns exactly the variables whose value can influence the expression: evaluating in two environments that agree on them gives the same result, and no bound variable is reported.", "quantifier": "every expression and every pair of environments", "why_tests_cant": "semantic statement over all expressions", "anchors": ["3.sf: exp-vinfo, exp->free-vars, var-uses-in-exp"]}
{"id": "C29", "title": "Assignment elimination preserves meaning and removes every local assignment", "statement": "After assignment conversion no local variable is ever assigned, and running the converted program produces the same result and effects as the original.", "quantifier": "every program in the core language", "why_tests_cant": "closures sharing an assigned variable, re-entered continuations etc. give unboundedly many programs", "anchors": ["4.sf: remove-assignments, box-exp, boxref-exp, boxset-exp"]}
{"id": "C30", "title": "Letrec conversion preserves meaning", "statement": "Reordering and classifying letrec/letrec* bindings does not change the value or the order of observable effects of a program.", "quantifier": "every program in the core language", "why_tests_cant": "depends on arbitrary initialisers", "anchors": ["4.sf: fix-letrecs"]}
{"id": "C31", "title": "CPS conversion preserves meaning and leaves only tail calls", "statement": "The CPS-converted program computes the same answer and effects as the source program, and in its output every procedure call is a tail call.", "quantifier": "every program in the core language", "why_tests_cant": "compiler correctness quantifies over all programs", "anchors": ["5.sf: cps-convert"]}
{"id": "C32", "title": "Lambda lifting closes every procedure", "statement": "After lambda lifting every lifted procedure refers only to its own parameters and globals, the extra parameters are the least set closed under calls, and the iteration that computes them terminates.", "quantifier": "every program with arbitrarily nested, mutually recursive local procedures", "why_tests_cant": "needs a fixpoint argument over arbitrary call graphs", "anchors": ["5.sf: lambda-lift, extra-vars"]}
{"id": "C33", "title": "Inlining preserves meaning", "statement": "Substituting arguments for parameters and deleting dead bindings does not change a program's result or its effects, and never captures a variable.", "quantifier": "every program in the core language", "why_tests_cant": "optimiser correctness quantifies over all programs", "anchors": ["4.sf: beta-substitute"]}
{"id": "C34", "title": "Constant folding preserves meaning", "statement": "Replacing tests that are known to be true or false does not change a program's result or effects.", "quantifier": "every program in the core language", "why_tests_cant": "optimiser correctness quantifies over all programs", "anchors": ["4.sf: constant-fold"]}
{"id": "C35", "title": "In-place argument passing equals parallel assignment", "statement": "When the code generator decides to load call arguments directly over live registers, the sequential moves have the same result as evaluating all arguments first.", "quantifier": "every register environment and argument list", "why_tests_cant": "move-order bugs need particular permutations", "anchors": ["7.sf: cg-fast-goto?, cg-depends-on?"]}
{"id": "C36", "title": "A promise is computed once", "statement": "Forcing a promise any number of times, including recursively from within its own computation, always returns the value that was stored first.", "quantifier": "every sequence and nesting of force operations", "why_tests_cant": "re-entrancy patterns are unbounded", "anchors": ["0.sf: make-promise, force, delay"]}
{"id": "C37", "title": "Each module body runs exactly once, after the modules it loads", "statement": "For every load graph, including diamonds and cycles, starting the program runs each reachable module's body exactly once, and for acyclic graphs after the bodies of all modules it loads.", "quantifier": "every finite load graph", "why_tests_cant": "graph shapes are unbounded", "anchors": ["6.sf: code-module, code-main", "c.sf: display-module, parse-file"]}
{"id": "C38", "title": "Integer division of the compatibility libraries obeys the Scheme definitions", "statement": "quotient/remainder, modulo, floor-quotient and the Euclidean fxdiv/fxmod return the mathematically specified quotient and remainder for every pair of fixnums with non-zero divisor.", "quantifier": "all fixnum pairs", "why_tests_cant": "2^60 pairs; exact divisions with mixed signs are not tested", "anchors": ["lib/libl.sf: fxquo fxrem fxmqu fxmlo fxdiv fxmod", "lib/libm.sf: the same"]}
{"id": "C39", "title": "Library gcd, integer square root and exponentiation are right", "statement": "fxgcd returns the greatest common divisor, fxsqrt the floor of the square root, fxexpt the power, whenever the result fits, and they terminate.", "quantifier": "all fixnums", "why_tests_cant": "unbounded iteration counts", "anchors": ["lib/libl.sf: fxgcd, fxsqrt, fxpow"]}
{"id": "C40", "title": "equal? of the large library terminates on circular data", "statement": "equal? answers whether the two objects have equal (possibly infinite) unfoldings and terminates on every heap, including circular ones.", "quantifier": "all pairs of objects in every heap", "why_tests_cant": "cyclic structures and union-find histories are unbounded", "anchors": ["lib/libl.sf: boundequal, stabequal, stabufind, isequal"]}
{"id": "C41", "title": "dynamic-wind runs the right thunks in the right order", "statement": "Whenever control moves between dynamic extents, by call, return or continuation invocation, exactly the after thunks of the extents left (innermost first) and then the before thunks of the extents entered (outermost first) are run, and the current extent becomes the target.", "quantifier": "every tree of extents and every sequence of jumps", "why_tests_cant": "histories of re-entrant continuations are unbounded", "anchors": ["lib/libl.sf: dynamic-state-reroot!, dynamic-wind, call-with-current-continuation"]}
{"id": "C42", "title": "Variable-argument calls deliver the right arguments", "statement": "apply, rest-parameter lambdas and case-lambda pass exactly the specified arguments in order, for every argument count.", "quantifier": "every argument list", "why_tests_cant": "argument counts and shapes are unbounded", "anchors": ["lib/libl.sf: apphost (apply, dotted lambda adapter, argc dispatcher, case lambda dispatcher)"]}
{"id": "C43", "title": "C code cleanup is harmless", "statement": "The peephole pass over generated C text keeps its length and changes only redundant parentheses around a single operand, never text after the first string literal of a line.", "quantifier": "every generated text", "why_tests_cant": "text space is unbounded", "anchors": ["6.sf: cleanup-c-code!"]}
{"id": "C44", "title": "Text assembly keeps every character", "statement": "Turning a nested text structure into one string concatenates its leaves left to right with nothing lost, and the preallocated length is exactly the number of characters written.", "quantifier": "every nesting of pairs, lists, vectors and strings", "why_tests_cant": "structures are recursive and unbounded", "anchors": ["3.sf: string-forest?, string-forest-length, string-forest->string"]}
{"id": "C45", "title": "Set operations on identifiers are set operations", "statement": "union, intersection, difference, subset and equality tests on duplicate-free identifier lists compute the mathematical operations and keep lists duplicate-free.", "quantifier": "all finite sets", "why_tests_cant": "all pairs of sets of any size", "anchors": ["3.sf: adjoinq, unionq, intersectionq, setdiffq, subsetq?, seteq?"]}
{"id": "C46", "title": "Checked fixnum arithmetic never returns a wrong result", "statement": "In a build with assertions, fxneg, fxabs, fxadd, fxsub, fxmul and exact division return the mathematical result whenever it is a fixnum and stop with an assertion failure otherwise; in a build without assertions none of them executes undefined behaviour on fixnum arguments.", "quantifier": "all pairs of fixnums, for fixnum widths 24, 28 and 30", "why_tests_cant": "2^60 operand pairs; the failures sit on boundaries that depend on both operands", "anchors": ["lib/libl.sf: fxneg, fxabs, fxadd, fxsub, fxmul, fxidv; lib/libm.sf, lib/libs.sf: same"]}
{"id": "C47", "title": "String search functions of the C generator are exact", "statement": "string-starts-with?, string-ends-with?, string-contains?, substring-before, substring-after, substring-before-suffix, substring-after-prefix, string-span and substring-after-span never index outside their arguments and return exactly the prefix, suffix, first occurrence or longest span they are named for.", "quantifier": "all pairs of strings, including empty ones", "why_tests_cant": "the strings are unbounded; index errors show only for needles longer than what is left of the text", "anchors": ["6.sf:18-113"]}
{"id": "C48", "title": "Conditionals compiled to C expressions keep their meaning", "statement": "A conditional of inlinable operands, compiled to &&, || or ?:, computes the value and the effects of the conditional.", "quantifier": "every nesting of conditionals and primitives, every register environment and store", "why_tests_cant": "operand shapes and effects combine without bound", "anchors": ["7.sf: cg-cexp, cg-cexp?, cg-tgt-rval"]}
{"id": "C49", "title": "Unboxing of values keeps the meaning and types every use", "statement": "unbox-values gives C types to let variables, tested variables and parameters such that every use of a typed variable is at its type, scopes are kept, and the program with the conversions this needs does what it did before.", "quantifier": "every program of core expressions, every behaviour of primitives that keeps to the types in their texts, every input and initial store", "why_tests_cant": "types, uses and control flow combine without bound; a wrong conversion shows only on paths that use no value of the type", "anchors": ["5.sf:273-360 unbox-values", "3.sf:832-846 var-unboxed-ctype-in-exp", "6.sf:294-308 c-argref-ctype"]}
{"id": "C50", "title": "The interpreter's compiler keeps the meaning of forms", "statement": "Code that scheme-compile makes from an expanded form, run with frames found by lexical address and the value store of globals, does what the form means when each variable has a location of its own: same value, error, output and values of globals; it stays inside its frames, and exactly the forms of the language are compiled.", "quantifier": "every list of forms, every environment of frames, every depth of nesting and number of variables, every behaviour of primitives that do not look into procedures, runs of every length", "why_tests_cant": "addresses depend on nesting depth, number of variables and the special cases for few arguments; captured and assigned variables combine without bound", "anchors": ["int/ints.sf:1852-1907 scheme-compile", "int/ints.sf:1916-2185 gen-*", "int/ints.sf:2215-2222 value-store-lookup", "int/ints.sf:1016-1018 annotations", "int/ints.sf:1257 argcheck"]}
{"id": "C51", "title": "Inlining of global definitions keeps the meaning of programs", "statement": "analyze-globals makes a program that does what the program did, and leaves the same values in all globals that other modules can see: globals assigned once are replaced by the simple values they are defined with, private constants not needed any more are dropped, and functions moved to the C stack can be compiled as C functions; the analysis always ends.", "quantifier": "every core program after remove-assignments, every behaviour of primitives that keep to their effects, every initial value of globals, every input, runs of every length", "why_tests_cant": "what is replaced depends on the order and mutual references of all definitions of a program; programs, inputs and run lengths have no bound", "anchors": ["4.sf:418-650 analyze-globals", "4.sf:461-476 ag-inlineable?", "4.sf:478-540 ag-stack-function?", "4.sf:542-573 ag-subst", "4.sf:575-600 global-substs", "4.sf:602-647 finalize-substs"]}
{"id": "C52", "title": "The generated C code does what the lifted program does", "statement": "The C code that code-generate makes of a lifted program writes nothing, ends with nothing and leaves nothing in globals that the program could not, does not get stuck unless the program can go wrong, and runs forever only if the program can: registers are not overwritten before they are read when a label is entered or a closure is called, C variables are set before they are read, a closure holds what its code expects in the order it expects, and calls of global constants go to the label the constant holds.", "quantifier": "every lifted program with distinct identifiers, every behaviour of primitives, every order in which the C compiler computes operands, every initial content of registers, C variables and globals, every input, runs of every length", "why_tests_cant": "overwriting a register too early shows only for some arrangements of operands, and some orders of evaluation are not those of the C compiler at hand; programs, inputs and run lengths have no bound", "anchors": ["7.sf:53-78 bgc-exp", "7.sf:126-518 code-gen-to-nextreg", "7.sf:166-216 cg-fast-goto", "7.sf:520-632 labels and curries", "7.sf:634-702 compile-labels"]}
{"id": "C53", "title": "No operation of the generated code gets an object from before a collection", "statement": "Whenever memory is collected in the course of a C statement, no value that C had read or computed before, and holds outside registers and globals, is used afterwards: operands that may allocate are computed to registers first.", "quantifier": "every program that is compiled, every set of allocating operations that agrees with their effects, every order in which operands are computed, every moment of collection", "why_tests_cant": "collections happen at moments that depend on the size of the heap and on all that was allocated before; the order of evaluation depends on the C compiler; a freed or moved object often still looks intact", "anchors": ["7.sf:185-205 cg-prim-args", "7.sf:321-335 cg-primapp-to", "7.sf:430-459 cg-gcsafe-cexp? and cg-cexp?", "7.sf:461-518 cg-cexp, cg-to", "6.sf:441-443 hpushptr, hreserve"]}
{"id": "C54", "title": "The table of roots of a module covers what its code stores in global variables", "statement": "compile-roots leaves out of the table that the collector updates those globals that are assigned once, a closed procedure, at top level of a sequence; all other globals that generated code stores objects in are in the table, so no object of the heap is ever held by a global that the collector does not know. Variables that the code sets are defined by the module (not extern), variables that it uses are declared, and each variable is named once.", "quantifier": "all lifted programs that the code generator accepts, all statements of the generated code, and all runs of it on the machine of C52 with any order of evaluation", "why_tests_cant": "a global missing from the table shows only if a collection happens between the assignment and a use and the memory of the old object is reused; the rule depends on how often and in which form a variable is assigned anywhere in the program (issue 5 of the project was a mistake in it)", "anchors": ["/repo/7.sf:113-124", "/repo/7.sf:541-552", "/repo/7.sf:704-745"]}
{"id": "C55", "title": "Closure entries are numbered without gaps and in order", "statement": "sort-by! returns all elements in order and keeps the order of those that the comparison does not tell apart. The cases of the switch in the host procedure, which closures name by number, are written as 0, 1, 2, ... in this order, each exactly once, as many as the table of entries has; a label has a case exactly if it is entered from closures, and different labels have different cases.", "quantifier": "all comparisons that are strict weak orders and all lists; all lifted programs with distinct labels that the code generator accepts", "why_tests_cant": "the merge sort changes lists in place and splits them at a computed place; a number that is used twice or not at all appears only for some sets of closures, found in some order, and then calls enter the wrong procedure", "anchors": ["/repo/7.sf:22-43", "/repo/7.sf:562-571", "/repo/7.sf:614-626", "/repo/7.sf:634-668", "/repo/7.sf:680-702", "/repo/7.sf:747-757"]}
{"id": "C56", "title": "Names written in comments do not change the C program", "statement": "When the C compiler has removed comments, the declaration of a global is left as it was meant, and the comments of labels, cases of closures and functions leave white space only, whatever the names in the program are.", "quantifier": "for all symbols, kinds of declaration, lists of argument names and texts that follow", "why_tests_cant": "The texts of names are unbounded; a test would have to think of symbols that end a comment, also across a joined line.", "anchors": ["7.sf:704-713", "7.sf:647-657", "7.sf:676-692", "6.sf:855"]}
{"id": "C57", "title": "Formats put every operand where its directive is", "statement": "c-format and c-format-prim make the text that the format means: characters as they are, each operand once and in order at its directive, counts and positions as numbers, loops gone through until no operand is left; only conversions of a type to itself or to void are shortened. With a wrong number of operands a format without loops stops with an error.", "quantifier": "for all formats built of characters, directives and loops, all operands, texts of live registers and results", "why_tests_cant": "Formats and operands are unbounded texts; the shortening looks at the text made so far, so its effect depends on all combinations of formats and operands.", "anchors": ["6.sf:154-245", "6.sf:250-279", "7.sf:355-411", "7.sf:704-713"]}
{"id": "C58", "title": "What functions on the C stack return", "statement": "A function that the compiler moves to the C stack is written as a C function that returns only what the Scheme function may return for the same arguments, with the same effects: jumps replace tail calls without mixing up old and new arguments, parameters that are also operands are copied first, temporaries are fresh, branches, lets, letrecs, loops and calls of the function itself keep their meaning. Every jump in it has its label.", "quantifier": "For all functions of the form accepted for the C stack, all values, worlds and primitives, all arguments, all initial values of C variables and all orders in which C evaluates operands", "why_tests_cant": "The result depends on every nesting of lets, branches, loops and self calls, on which operands are C expressions and on the order in which C evaluates operands; tests run a few functions with one C compiler.", "anchors": ["6.sf:641-868", "4.sf:480-540"]}
