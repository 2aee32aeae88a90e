# Design of the model and the proofs

The subject is the #F (sharpF) Scheme-to-C compiler: the runtime C text that it
emits (`6.sf`, `0.sf`, `lib/*.sf`) and its passes (`1.sf` .. `7.sf`).  Nothing is
built or run; the sources are read as text and transcribed function by function.

## Conventions

* `Model_*.v`   Gallina transcriptions only.  Each definition cites file and lines.
* `Spec_*.v`    (or a section at the top of a proof file) independent
  specifications: they do not mention model helpers.
* `Proofs_*.v`  lemmas.
* `Properties_*.v` only theorem statements, closed by `exact lemma.`, followed by
  `Print Assumptions`, plus a concrete non-trivial instance (`Example`) of the
  hypotheses.
* C integers are `Z`.  Every wrap (`mod 2^k`) and mask is written out.  Undefined
  behaviour (signed overflow, out-of-bounds access, division by zero, failing
  `assert`) is an explicit outcome (`UB`, or `None` where one outcome suffices).
* Loops whose bound is data dependent carry fuel and return an error value when it
  runs out; the theorems then say that the error value is never produced for the
  fuel given (this is the termination claim).
* Platform assumption: LP64 (32-bit `int`, 64-bit `long`/pointers), two's
  complement, arithmetic `>>`, 8-byte words, C locale.

## Trusted base

* The Coq 8.16.1 kernel (and `vm_compute` for closed witnesses).
* What `Print Assumptions` lists below each theorem (aim: "Closed under the global
  context").
* The transcription of the cited source lines into Gallina, including the stated
  simplifications.  Code not cited by any definition is not modelled.
* External functions (malloc/realloc/calloc never failing, strlen, strcmp, strtol,
  memcpy, isalpha etc. in the C locale) are modelled by their C standard meaning.

## Per property

| id | modelled | method and outcome |
|----|----------|--------|
| C01 | isimm/mkimm/getimm*/booleans/notobjptr on Z words (Model_Imm; 0.sf:245-297, 6.sf) | bit arithmetic for all payloads and tags; the pointer test before the first heap exists is refuted |
| C02 | fx+ fx- fxneg fxabs, bit operations, shifts, tests, min/max, n-ary macros and comparison chains as C int expressions followed by mkimm (Model_Imm, Model_Imm2; 0.sf:417-529) | Z arithmetic with explicit int range; "logical" right shift refuted (it is arithmetic). The fxlognot template and the 3-argument fxmin/fxmax templates name unbound variables and are not modelled |
| C03 | fx* and fxexpt (Model_Imm) | exact boundary of int overflow proved; "never undefined" refuted |
| C04 | fx/ and fx% (Model_Imm) | Z.quot/Z.rem laws; zero divisor is the only undefined case |
| C05 | evaluator of fixnum expressions with and without boxing of intermediates (Model_Imm; 5.sf unbox-values) | refuted when an intermediate leaves 24 bits; equality proved when none does, and for sums/differences whenever the C ints do not overflow |
| C06 | toheap2/relocate/cxm_hgc/hreserve and a mutator, on a byte-addressed word memory (Model_GC; 6.sf:505-613) | invariant of the copying scan: forwarding pointers give an isomorphism from the reachable blocks onto to-space; runs of any mutator program with and without collections have equal outcomes |
| C07 | finalize and the event list of free calls (Model_GC) | linear walk over from-space; each dead native freed exactly once, over whole runs |
| C08 | hreserve, heap growth and copying bounds (Model_GC) | corollary of the C06 invariant; hypotheses: realloc succeeds and addresses do not wrap (`alloc_ok`) |
| C09 | cxm_rgc, rreserve, host prologue/epilogue, window shifts (Model_Regs; 6.sf:440, 466-486, 589-600; 7.sf:351-413, 664) | refinement to an unbounded window, by induction over runs of stores, shifts, calls and host changes; that the code generator stays within MAX_HOSTREGS is the hypothesis `wrun = Some`; "reads stay inside the file" refuted, exact condition proved |
| C10 | internsym (init, probing, rehash), symbolname, hashs (Model_Sym; 0.sf:1446-1488) | invariant: each entry lies on its filled probe path, slots injective; pigeonhole gives termination; induction over histories, for any hash function; objects distinct up to 2^24 symbols (refuted beyond); strings containing NUL refuted |
| C11 | fixnum->string, string->fixnum, strtofxfl (exact part), strtol by the C standard for bases 2..36 (Model_Num; 0.sf:1515-1553, libl.sf:653-690, 2378-2415) | digit-list induction; buffer bound; exact characterisation of the accepted texts; "only numerals accepted" refuted |
| C12 | `islist` on the word memory, any object graph (Model_List) | `proper` is inductive; Floyd round invariant, pigeonhole on heap addresses gives the bound; proved |
| C13 | the C loops of length/reverse/reverse!/append/list-tail/list-ref/last-pair/make-vector/vector->list/list->vector | list-segment predicates over memory, frame conditions, exact heap use; proved |
| C14 | `isequal`, `iseqv` with abstract doubles and strings | objects denote finite trees (unique); decides `teq`; refuted when a NaN is present |
| C15 | `mem_loop`/`ass_loop` with each primitive's test | first match in the chain; refuted for NaN keys |
| C16 | newstring, allocstring, substring, stringcat, dupstring, stringfill, stringref, the string primitives and list conversions (Model_Str; 0.sf:893-1060, 1584-1600). Blocks of bytes with unwritten bytes marked; assertions on; malloc succeeds; Scheme lists of characters are Coq lists | memset/memcpy lemmas over block splits; each primitive maps a block holding s to a block holding the specified list, or stops |
| C17 | strcmp by its C definition, strcmp_ci (Model_Str; 0.sf:965-970, 1008-1036); C locale, signed char | induction on both strings; sign of the result equals the lexicographic comparison |
| C18 | initial-writer and display-fixnum (Model_Write; 0.sf:1767-1851), datum->rhe-sexp and read/1 (1.sf:851-948), with the reader of C19; printf %d taken as the C decimal | each atom is a token the lexer takes whole; structures are texts of trees in the relations of C19; conversion undoes the datum. Witness for the least fixnum |
| C19 | the whole reader: initial-reader, subread, subread-to-terminator, strings, characters, numbers, here-strings, #read, #fload, #.( (Model_Read; 1.sf:46-850); ports are character lists, errors a result; warnings are not recorded | mutual induction over the relations gap (spacing), wrote (a text of a tree) and seq (items up to a bracket), all defined without the reader; a token is any text the reader takes whole as a datum, carried to every delimited context by a lexer lemma |
| C20 | as C19 | lexicographic measure (text length, stage); fuel 2*length+4 proved enough, results independent of it; characters consumed is a suffix property of every sub-reader; two witnesses outside the plain texts |
| C21 | as C19 | induction over the item sequence with the accumulator of subread-to-terminator; refutations by witness |
| C22 | integer-representation-table, integer-representation-width, integer-datum, subread-uinteger, subread-integer (Model_Lit; 1.sf:229-231, 389-470), bin->oct and the integer rules of %const (libl.sf:707-741) | length-then-lexicographic order equals numeric order on normal digit strings (induction); the 32 table rows checked by computation; C constant value by digit induction |
| C23 | c-mangle, c-undecorate-alvar, all name makers and label assignment (Model_Mangle; 6.sf:281-316, 643-682; 7.sf:207-213, 520-561; 3.sf:210) | prefix decoding of escapes; label suffix "_v" cannot occur in a mangled name; private constant names refuted |
| C24 | merge sort | permutation, sortedness, stability |
| C25 | `Model_Syntax`: identifiers and renamed identifiers, compile-syntax-rules with all its checks and the reduction of the environment, the matcher, the bindings, instantiation of templates, the tests and conversions of boxed patterns and templates, the choice of the rule (2.sf 85-96, 182-198, 247-248, 653-753, 757-1068). Errors are `None`. `Spec_Syntax`: relations `fits` (form and pattern), `took` (variable and what it stands for, lists of them under ellipses), `instance` (template and result), `picks` (first rule that applies). | Induction on the size of patterns and templates; the checks made at definition give the invariants that instantiation needs (`Proofs_Syntax`, `Proofs_SynTmpl`, `Proofs_SynRule`). `C25_bindings`: the matcher decides `fits`, the bindings are `took`; `C25_expansion`: the result is the `instance` of the template of the first rule that fits, nothing if none does or lengths under an ellipsis differ; `C25_rebuild`; `C25_ellipsis`: definition and use agree on ellipses; `C25_dots`: what an ellipsis is; `C25_tests`, `C25_operations` (`Spec_SynBox`): the boxes. `C25_literals_refuted`: literals come back renamed. |
| C26 | As C25; `renaming`: numbers in the range given to this expansion, one number for each identifier. | The list of inserted identifiers has no duplicates, so positions in it are an injective numbering. `C26_renaming`: range, same number for the same identifier, different for different ones, and each means what it means where the transformer was defined; `C26_inserted`, `C26_fresh`: the identifiers of the result are those of the form and the inserted ones. `C26_siblings_refuted`: two expansions side by side insert the same identifiers. |
| C27 | memoization table | history induction |
| C28 | `Model_Core`: identifiers, effects, core expressions and exp-vinfo, var-uses, free-vars (3.sf 148-277, 770-863), c-argref-ctype (6.sf 294-307). `Spec_Sem`: a machine for core expressions with operands in any order, continuations, assignable cells; what a primitive does is any script over memory and input/output. | Counting lemma for exp-vinfo by induction on expressions; the semantic half by a step-by-step simulation between the two runs (`Proofs_Sim` has the general theorem). `C28_free_vars_exact`, `C28_use_counts`, `C28_free_vars_suffice`. |
| C29 | `Model_Assign`: box, boxref and boxset expressions, the loop over parameters and remove-assignments (4.sf 291-412), on the core language of `Model_Core`. Source programs run with every local variable in a cell, converted ones with local variables that are plain values (`Spec_Sem`, modes MCells and MDirect). `Spec_Scope`: distinct binders, assignable programs. | Conversion as a relation on code, values, continuations and memory (a world of paired blocks and frozen cells); every step of the converted program is matched by steps of the source, with operands in any order (`Proofs_Assign`); the function satisfies the relation (`Proofs_Box`). `C29_assignments_preserved`, `C29_no_local_assignment`, `C29_converts` (no "boxing error" when only lambda- and letcc-bound variables are assigned), `C29_names_distinct`, `C29_effects_declared` (the box operations keep to their declared effects). |
| C30 | `Model_Letrec`: fix-letrecs with the recognisers of varassign*, letrec and letrec* (4.sf 18-133), the classification of bindings, reclassification of procedures into lets and a fix, and the order of what is left (4.sf 154-290). The pass calls itself on parts only; `exp_depth` is the fuel. car of the empty list in varassign*-exp? is the outcome `UB`. `Spec_Letrec`: what letrec and letrec* stand for (`chain`, `stored`), values that can be computed at any time (`steady`), `settled` programs. | A relation between the program and the fixed program (`FX`, Proofs_Letrec) in which each variable is a cell in both, a cell whose final value is known from the start, or dead; the simulation is Proofs_LetrecSim, the pass gives related programs in Proofs_LetrecAll. Before the pass it is an error to read a variable without a value (mode `MStrict`). `C30_meaning_preserved_partial`: results, output and globals are kept for settled programs. Refuted without that: `C30_moved_read_refuted`, `C30_moved_jump_refuted`, `C30_moved_failure_refuted` (a simple value is computed before an earlier complex one), `C30_crash_refuted`. For all programs, by counting binding occurrences (Proofs_LetrecScope): `C30_scope`; totality by depth (Proofs_LetrecTotal): `C30_converts`, and `C30_overrun` where the test takes car of the empty list. |
| C31 | `Model_Cps`: cps-complex, cps-simple?, cps-simple, cps, cps-list, cps-one, noreturn and the final wrapping (5.sf 24-168) on the core language. `Spec_Cps`: `tails` (all calls are tail calls), `quiet`, `tame` (shape of continuation expressions), `pending`, `height`. | Relation between source code and converted code, source continuations and continuation closures (`Proofs_Cps`); simulation with administrative steps counted by a measure (`Proofs_CpsRun`); the output of the pass is in the relation, by structural induction (`Proofs_CpsOk`); binders counted and free variables bounded (`Proofs_CpsMore`); stack invariant over runs (`Proofs_CpsStack`). `C31_meaning_preserved`, `C31_only_tail_calls`, `C31_bounded_stack`, `C31_converts`, `C31_names_distinct`, `C31_no_new_variables`; `C31_late_continuation_refuted`: the continuation expression of withcc, if it reads a global variable, is evaluated after the body has run. |
| C32 | `Model_Lift`: extra-vars with its wrap-around loop, curry-lam, lift-lam, lift-lams, lift, lambda-lift (5.sf 195-268) on the core language. `Spec_Lift`: `needs` (least set closed under calls), `used_in`, `flat`, `closed`, `direct`. | The loop ends after at most (n*m+2)(n+1) rounds and its result is the least solution (`Proofs_Extra`, measure and invariant). Simulation between direct closures and wrappers that call top-level labels with the extra parameters (`Proofs_Lift`), established for the output of `lift` by structural induction (`Proofs_LiftOk`). `C32_extra_parameters`, `C32_meaning_preserved`, `C32_lifted_closed`, `C32_flat`, `C32_lifts`; `C32_unused_wrappers_refuted`: a lifted procedure may contain an unused wrapper that mentions an unbound variable. |
| C33 | `Model_Beta`: beta-substitute (4.sf 738-905) with its classifications of operands, the loop over the variables of a let, substitution in head position and the renewed pass over what a substitution has made; prim-cexp? (6.sf 134-136), curry-exp? (3.sf 446-487). The pass calls itself on what it has made, so it has fuel. `Spec_Beta`: `fine` programs (assign only non-constant globals, primitives keep to their declared effects), and `careful`, which follows a run and checks that nothing is captured, that only quiet operands are dropped and that an operand with effects moves only past operands that touch nothing. | `C33_meaning_preserved`: careful runs preserve results, output and globals, by a chain of small steps each of which is a simulation (Proofs_BetaRun). `C33_scope`: every run, careful or not, gives well-formed binders and no new free variables. `C33_choices` (`Spec_Choice`): an operand is dropped only if it is idle, copied only if it has the same value everywhere and is small, moved only if it is used once and nothing stands in between. Refuted without care: `C33_capture_refuted` (a procedure copied to two places is not renamed and its parameter is captured, although all variables of the program are distinct), `C33_dropped_jump_refuted` (an unused withcc is dropped), `C33_moved_operand_refuted` (an operand that ends the program is moved beside one that fails). |
| C34 | `Model_Fold`: exp->ctype, fold-typecheck-ctype, fold-typeassert-ctype, const-fold (4.sf 656-731, 3.sf 865-880) and the functions that read types off primitive texts (6.sf 119-152), on the core language. The pass calls itself on what it has made, so it has fuel. `Spec_Fold`: the texts described by their first separators, `c_types` (what primitives promise), `foldable` programs. | Typing judgement for environments and a parallel relation "tests that are known are folded", shown to be a simulation (`Proofs_FoldSem`, `Proofs_FoldRun`); the output of the pass is a chain of such foldings, by induction on fuel with an invariant on scopes (`Proofs_FoldWf`, `Proofs_Fold`); size decreases at every refolding. `C34_meaning_preserved`, `C34_total`, `C34_well_formed`, `C34_texts`; `C34_global_assert_refuted`: a type asserted of a global variable is still believed after an assignment to it. |
| C35 | cg-prim-args, cg-depends-on?, cg-fast-goto?, the jump templates, cg-cexp (Model_CG; 7.sf:121-520); C text is represented by expression trees; the code of temporaries is arbitrary | registers read by an operand are those of its variables; sequential moves = evaluation before all moves; holds for the fast and the shifted form |
| C36 | make-promise/force/delay (0.sf:1619-1643) and the boxed r7rs promises (libl.sf:2730-2752) in Model_Promise; procedures are arbitrary code, an execution is any sequence of entries and returns | state invariant over all event sequences; a box that is done keeps its value under set-box! because the pair it is moved to receives the same value |
| C37 | path functions, module-name, module-add-load!, parse-file loads and externs, MODULE/LOAD (Model_Mod; 6.sf:322-331, 489-502; c.sf:145-238). Macro expansion of the loaded files is not modelled: a file is its list of load, define and other forms | depth-first walk invariants for both the compile-time and the run-time traversal; fuel bounded by the number of unvisited names |
| C38 | fxquo/fxrem/fxmlo/fxdiv/fxmod/fxidv/fxmqu of libs/libm/libl (Model_Arith) | Z arithmetic for all widths; floor-quotient refuted and characterised |
| C39 | fxgcd, fxpow, fxsqrt, libxs fxexpt (Model_Arith) | loops with proved iteration bounds; negative exponent behaviour proved, inverse refuted |
| C40 | `Model_Circ`: boundequal, stabnew with rehashing, stabshared, stabufind, stabequal, isequal (lib/libl.sf 3316-3433, 3502-3510) on a heap given as a map from words to objects; field order, probing loops and path shortening as in the C text. | Specification: agreement to depth n of unfoldings. Hash table invariant (every key reachable by probing, table at most half full); the traversal visits a closed set; union-find: every slot leads to a representative in fewer steps than slots; each failed find lowers the number of classes, which bounds the recursion; joined pairs have parts related in the final classes, so the classes form a bisimulation up to equivalence. `C40_equal_decides_unfolding`, `C40_bounded_stage`, `C40_equivalence`. |
| C41 | `Model_Wind`: the cells of *current-dynamic-state*, dynamic-state-reroot! with its heap updates in order, dynamic-wind, call/cc and exit as operations on the extent (lib/libl.sf 4233-4284, 4414-4418). Thunks are a parameter `run`, assumed to come back to their extent. Values and continuations are left out; the `here` variables of pending dynamic-winds are the control stack. | Specification: extents as lists of winds; `moves` = afters of what is left, innermost first, then befores of what is entered, outermost first. Invariant: every cell points one step towards the current extent, with the thunk pair oriented that way; rerooting preserves it (induction on the distance, which the fuel bounds). `C41_extents_are_respected`, `C41_calls_are_determined`. |
| C42 | `Model_Apply`: apphost case by case on a register buffer of given size (out-of-range access is a distinct outcome), rreserve, the closures made by make-improper-lambda etc., and the lambda and case-lambda macros as functions from formals to closures (lib/libl.sf 33-49, 2540-2688). Garbage collection at hreserve is not part of this model. | Loop lemmas for shifting, spreading and collecting; `C42_lambda`, `C42_case_lambda`, `C42_case_lambda_fails`, `C42_apply`, `C42_apply_case_lambda`, `C42_argc_dispatch`, `C42_void_continuation`, `C42_too_few_arguments`. `C42_apply_overruns` and `C42_apply_any_list_refuted`: apply of a list that does not fit writes past the register buffer, the assert comes too late. |
| C43 | cleanup-c-code! (Model_Clean; 6.sf:333-392) | loop invariant gives the exact rewriting relation, proved functional; small meaning of move statements for harmlessness; refutations by witnesses |
| C44 | string-forest functions | structural induction |
| C45 | list-set operations | membership induction |
| C46 | the checked (assert) and unchecked builds of library arithmetic (Model_Arith; libl.sf:463-593) | exact result or stop; zero divisors and the one overflowing quotient stop; the double comparison in fxmul is modelled by the exact product |
| C47 | the string functions of 6.sf:18-113 (Model_CStr) with checked string-ref and substring | loop invariants; first-occurrence characterisation |
| C48 | cg-cexp of variables, conditionals and primitive applications (Model_CG; 7.sf:461-502); operands of a C call evaluated left to right | induction on expressions against a relational meaning; witness for the repeated test with an effect |
| C49 | `Model_Unbox`: unbox-values (5.sf 273-360) with the loops over let variables and parameters, unbox-ctype-test, var-unboxed-ctype and the types of uses (3.sf 832-846). Fuel is `exp_depth`. `Spec_Unbox`: a typed variable gets its value through an operation of its own (`explicit`), uses of a variable at a C type (`use_in`), what primitives promise (`unboxing`), and the programs for which conversions at procedure entry do no harm (`gentle`, `sure`). | A relation `UV` between the program and the explicit result; a simulation in which a frame of the new program may hold operands in the opposite order and with conversions (Proofs_UnboxSem, Proofs_UnboxRun); the pass gives related programs (Proofs_Unbox). `C49_meaning_preserved`; refuted without its conditions: `C49_hasty_refuted`, `C49_stale_refuted`. `C49_uses`: typed variables are used at their type only; `C49_scope`; `C49_succeeds`; `C49_found`: the type found for a variable is the one of all its uses. |
| C50 | `Model_Interp`: the compiler of the interpreter (int/ints.sf 1816-1907), its code generator (1916-2185) as a first-order type of code with what each closure does, frames, annotations and their check, the value store and the running of forms (2192-2234). Primitives are parameters. `Spec_Interp`: a grammar of forms (`reads`), and the meaning of expressions with one location for each variable. | A compilation relation (Proofs_Interp) and a simulation in which locations of variables are mapped one-to-one to slots of frames and the map only grows (Proofs_InterpRun); both sides take the same steps, so running on for ever is covered. `C50_meaning`, `C50_safe` (also for programs that read letrec variables too early), `C50_compiled`, `C50_argc`; refuted: `C50_grammar_refuted`, `C50_argc_refuted`, `C50_order_refuted`, `C50_letrec_refuted`. The order of operator and operands for 5 or more operands follows from cps-list (5.sf 130-144), with which the interpreter is compiled. |
| C51 | `Model_Globals`: analyze-globals with all its local functions (4.sf 418-650), on the core language of `Model_Core`. The test for stack functions takes fuel. `Spec_Globals`: refinement where only some globals can be seen, reading before assignment, definitions, the order of private constants, identifiers that share a symbol, and the form of functions that can be compiled for the C stack (6.sf 641-868). | A simulation up to a relation between old and new expressions, with the invariant that every inlined global either has not been assigned or holds a value that its replacement stands for (Proofs_GlobalsSem, Proofs_GlobalsRun); the static part shows by induction on the list of definitions that the pass establishes the relation (Proofs_Globals, Proofs_GlobalsDefs, Proofs_GlobalsOk, Proofs_GlobalsMain). `C51_meaning_partial`; refuted: `C51_scope_refuted`, `C51_early_refuted`, `C51_private_rec_refuted`, `C51_terminates_refuted` (for every amount of fuel), `C51_stack_refuted`. `C51_stack`: an invariant of the list of replacements (what they mention is not replaced later) and induction on the fuel of the test (Proofs_GlobalsStack). |
| C52 | `Model_CodeGen`: the code generator 7.sf 53-78, 126-518 and 520-702: C expressions, targets, temporaries, gotos with and without temporaries, closures, static closures of constants, entries of labels. The C text is a tree. Left out: comments, max-live, reserves (C08, C09), texts of operations and their clean-up (C43, C47), short conditionals (C48), case numbers and names (C23). `Spec_CodeGen`: a machine with registers, scoped C variables that start with any value, closures in memory, and operands computed in any order; `implements`; what the generator may rely on (`ready`). | Induction on expressions: the code made for one, run with registers and C variables that stand for its variables, ends with the value in its target and leaves the live registers (Proofs_CodeGen); then a simulation where one step runs the code of a label and closures correspond to wrappers (Proofs_CodeGenRun). `C52_meaning_preserved`, with a program and a run of its code on a machine that computes operands from the last to the first. `C52_succeeds` (Proofs_CodeGenSome): by induction on the form of programs (`fit`), every variable met is in a register, a C variable or global, and all wrappers and jumps agree. |
| C53 | The code of `Model_CodeGen`. `Spec_Collect`: C expressions are computed with a clock that counts collections, operands in any order; an operation that gets a value from before the last collection is `stale`. Which operations collect is a parameter that agrees with effects (`honest`). | Induction on C expressions (those without collections do not advance the clock) and on programs (Proofs_Collect). `C53_operands`, `C53_tame_partial`; the full claim is refuted by `C53_refuted` with the operations of 0.sf. |
| C54 | `Model_Roots`: global-vars (not sorted), static-roots, compile-globals, compile-roots, on the programs and the code of `Model_CodeGen`. `Spec_Roots`: statements that store in a global, that set it to a block outside the heap, that use it. | The number of assignments of a global is counted in the program, and of those that collect-curries! takes for static ones among them; induction on the generator shows that a storing statement comes from one of the others (Proofs_Roots). Runs: globals change by storing statements only. |
| C55 | `Model_Cases`: merge-by!, split-by!, sort-by! (with fuel, lists not changed in place), add-curry!, sort-curries-by-fix-order!, lookup-curry-case-no, the case labels that compile-body and compile-label write, and the size of the table in compile-cases. | Merging keeps elements, order and stability; the fuel suffices as both halves are shorter. Induction on the labels of the program with the part of the sorted list that has been written (Proofs_Cases). |
| C56 | `Model_Comment`: the texts with comments that compile-globals, compile-curry-case, compile-label and the stack function generator write; `Spec_Comment`: phases 2 and 3 of C translation as far as comments and literals go. | Partial: for names in which no comment ends, the texts are read as the declaration or as white space, whatever follows (`C56_declarations_partial`, `C56_comments_partial`, by induction over the name and splicing). The full statement is false: `C56_refuted`, `C56_labels_refuted` with |a*/b|. |
| C57 | `Model_Format`: match-name, the loop of c-format-prim-text* with its shortening of conversions after $arg and $return, c-stringify-text, c-format. `Spec_Format`: formats as pieces, the text they mean, the conversions that may be left out. | `C57_format`: induction over the items of a format with the scanner run from any state of its buffer, then over the passes of loops; `C57_counts`, `C57_words` (shortening is of whole words), `C57_declarations` (the texts of C56). Two corner cases are false of the code and excluded by hypotheses: `C57_void_refuted`, `C57_eleven_refuted`. |
| C58 | `Model_Stack`: stack-function-code-generate (6.sf 641-868): cg-cexp?, cg-contains-tail-call?, cg-cexp, cg-let, cg-body. The C text is a tree; the table of labels is passed down instead of assigned; time stamps are threaded. `Spec_Stack`: the form of functions (scopes, arities, labels in return position), what Scheme functions return, a C machine with assignments, blocks and jumps. | `C58_stack`: induction on the height of the C run, with an invariant that the C store agrees with the variables in scope and that labels in scope are the closures of the source (Proofs_Stack). Letrecs outside return position are excluded. `C58_labels_partial` by induction on the fuel of the generator (Proofs_StackFun); the full statement is false: `C58_labels_refuted`. `C58_succeeds`: induction on the form of the function, the new variables differ from all parameters (Proofs_StackGen). `C58_tail`: induction on the fuel; `Spec_StackTail` says which statements let the stack grow (Proofs_StackTail). `C58_calls_partial`: induction on the fuel with the form of the expression (Proofs_StackCalls); `C58_calls_refuted`: letrecs outside return position that only call themselves. `C58_loops_partial`: as C58_labels_partial, for loops that jump only to themselves (Proofs_StackLoops). |

Flonum arithmetic, port I/O, and the C compiler are not modelled.
