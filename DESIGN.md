# Formal model of hdachev/fu in Rocq (Coq 8.16.1)

The repo contains a C++ runtime (`include/`), a standard library in the fu language (`lib/`), and the self-hosted compiler
(`src/`).  We model, function by function, the parts that carry the semantic properties in `properties.jsonl`.  fu has value
semantics, so a fu function that mutates a `&mut` argument becomes a Gallina function returning the new value; C++ code whose
point is sharing (vec, ARC, lock-free stack, parallel-for) is modelled with an explicit heap or explicit interleavings.

## Layout (`rocq/theories/`)

* `<X>Model.v`   executable model, every definition citing file and lines; no proofs.
* `<X>Spec.v`    (where useful) a small independent specification, from the English property.
* `<X>Proofs.v` and the like: lemmas.
* `<X>Props.v`   the property theorems, each followed by `Print Assumptions`, and examples: concrete cases which meet the
  hypotheses of the theorems, and the concrete failures behind the `_refuted` ones.

Out-of-bounds reads and writes, failed `assert`s, over-wide shifts, overflow which is undefined in C++ and so on are a distinct
outcome (`None`, `UB`, `Crash`, `Trap`), never a default value.  Loops become structural recursion or explicit fuel whose
exhaustion is a distinct outcome which the theorems exclude.

Names: `…_partial`: the theorem has a hypothesis which the English property does not have (the note in `MANIFEST.json` says
which).  `…_refuted`: the English property, or the missing half of a partial one, is false of the code; the theorem exhibits the
counterexample in the model.

## Trusted base

* Coq's kernel (with the VM: `vm_compute` is used for concrete examples and for a few finite checks; coqchk re-checks all of it).
* `Print Assumptions` of every theorem named in `MANIFEST.json` says "Closed under the global context": no axiom is used, not
  even one of the standard library's.  The command is below each theorem in the `Props` files, so the build prints it again.
* coqchk names seven constants of the standard library's `Coq.ssr.ssrunder.Under_rel` (`Under_rel`, `Over_rel`, `Under_relE`, ...): they are
  the sealed fields of a module which lia's libraries load; no theorem here depends on them.
* The reading of the source.  Each definition of a model cites the lines it models; the simplifications are in the comment.
* Compilers and machine: the C++ and fu compilers, `malloc`, the memory model (concurrency is modelled as sequentially
  consistent, except that C59 and C60 take happens-before and relaxed loads of the C++ memory model into account), system calls and the C library are not modelled.

## Per property

| id | property | model | proof | status |
|----|----|----|----|----|
| C01 | fu::vec has value semantics despite sharing storage | VecModel/VecMem/VecMachine: heap of reference counted blocks, vec handles (inline or heap), every public operation as a heap transformer | every history of operations on any set of handles refines a map from handle to list (VecInv, VecSplice*, VecApi*) | proved |
| C02 | fu::vec operations compute the list operation they name | as C01 | as C01, with the list operation of each call as specification (VecSpec) | proved |
| C03 | no leak, double free or use after free of vec buffers | as C01; the heap counts references and releases | invariant: count of a block = number of handles on it; element constructions and destructions balance | proved |
| C04 | the packed vec representation is unambiguous | VecPack: control words on 32-bit words | bit lemmas for all words; inline layout refuted for five element sizes | proved |
| C05 | reserve makes a vec unique and large enough without changing it | as C01 | corollary of the refinement | proved |
| C06 | buffer size rounding never under-allocates | ArcModel: ARC_ALLOC rounding | arithmetic on 32-bit words | proved |
| C07 | views and slices stay inside their vec and agree with list slicing | ViewModel: clamping of starts and ends | against firstn/skipn | proved |
| C08 | mutating a range view edits only that range | RangeModel: ranges over a list with packed trims | operation by operation | proved |
| C09 | decimal printing is exact for every integer | DecModel: digit loops | induction, against the value of the digits | proved |
| C10 | the lock-free stack never loses, duplicates or invents nodes | LfsModel: small steps of push/pop of any number of threads, tagged head, reuse of nodes | invariant over all interleavings; linearisation at the CAS | proved |
| C11 | parallel-for splits the index range exactly | ParforModel: batch arithmetic | arithmetic | proved |
| C12 | parallel-for returns only after every batch has run, and always returns | SchedModel: small steps of callers and workers, mutex, condition variables, spurious wake-ups | invariant + decreasing measure, nested calls included | proved |
| C13 | hash Map behaves as a finite map | HashModel: index and data arrays, the probe/shift/compact/grow loops | representation invariant, refinement of every history to a finite map; growing an index with a free slot: the doubled index as a line between its free slots (GrowLine.v), phase invariants, pigeonhole | partial |
| C14 | hash Map's probe invariants hold in every reachable state | as C13, Map::Verify itself | invariant implies Verify | partial |
| C15 | iterating a hash Map visits each live entry exactly once | as C13, each/keys with removals by the visitor | loop invariant | partial |
| C16 | BitSet is a finite set of naturals | BitSetModel: byte lists | membership lemmas per operation, history induction | proved |
| C17 | BitSet representation is canonical | as C16 | as C16 | proved |
| C18 | path normalisation preserves the meaning of the path | PathModel: the loops on byte strings | against an interpreter of path components | proved |
| C19 | path splitting is lossless | as C18 | induction | proved |
| C20 | relative/join invert each other | as C18 | against the interpreter | proved |
| C21 | UTF-8 encoding and decoding round-trip | Utf8Model | case analysis on ranges, induction on sequences | proved |
| C22 | TEA mixing is a permutation and digests are collision-free encodings | TeaModel on 32-bit words | explicit inverses | proved |
| C23 | the random generator never gets stuck | RandModel; Gf2: the step as a matrix | bijection, and the period by matrix powers computed in the kernel | proved |
| C24 | shuffle returns a permutation | RandModel: shuffle | permutation by induction | proved |
| C25 | ASCII case mapping and trim | AsciiModel | induction | proved |
| C26 | find returns the first occurrence | PreludeModel: find | induction | proved |
| C27 | the generic comparison is a total order consistent with equality | CmpModel: <> over all types built of primitives, arrays, structs | induction on the type | proved |
| C28 | join inverts split | PreludeModel: split, join, replace | induction | proved |
| C29 | reverse, map, filter and the in-place array helpers | PreludeModel | induction | proved |
| C30 | varint encoding round-trips and is self-delimiting | VarintModel | induction | proved |
| C31 | decimal parsing helpers are exact | DecModel: parsing | induction | proved |
| C32 | lifetime paths round-trip through their string encoding | LifetimeModel: paths as byte strings | parsing inverts printing | proved |
| C33 | lifetime union is a semilattice join | LifetimeModel: Paths_union etc; LifetimeSem: places covered | merge lemmas | proved |
| C34 | usage masks shift losslessly between a struct and its fields | UsageModel: masks | bit lemmas | proved |
| C35 | flat Set/Map/CountedSet are a finite set/map/multiset | FlatModel: sorted arrays with the actual binary search | every history refines a set/map/multiset | proved |
| C36 | levenshtein is the edit distance | LevModel: single-row DP | equal to the least cost of an edit script | proved |
| C37 | the lexer terminates and accounts for its whole input | LexerModel: the whole of lex() | equivalence with a grammar of tokens (LexerSpec): soundness and completeness of each loop | proved |
| C38 | integer literals are evaluated exactly or rejected | IntlitModel | against the value of the digits | proved |
| C39 | the slot Pool never hands out a live slot | PoolModel: bit masks of free slots | history induction | proved |
| C40 | event-loop user data packing round-trips | KsfdModel | bit lemmas | proved |
| C41 | HTTP request parsing distinguishes incomplete from invalid, and responses state their length | HttpModel: request head parser, response writer, connection buffers | case by case; refutations on concrete requests | partial |
| C42 | test-diff serialisation deduplicates stably | TestdiffModel | induction | proved |
| C43 | compiler identifiers encode reversibly | VarintModel, ClosureModel, CanonModel | parsing inverts printing | proved |
| C44 | legacy vec equality is element-wise equality | LegacyModel | induction; refuted where sizes in bytes are compared | proved |
| C45 | type canons of generic patterns match soundly | CanonModel: canons as byte strings, subpatterns, acceptance | against a tree of patterns (CanonSpec) | partial |
| C46 | type assignability is reflexive and transitive, and relaxing never adds qualifiers | TypesModel: types as canon, qualifiers, lifetime, facts | on top of C45 and C33 | partial |
| C47 | closure ids decode to what they were made from | ClosureModel | parsing inverts printing | proved |
| C48 | user type canons decode to the type they were made for | CanonModel | parsing inverts printing | proved |
| C49 | swapping arrays and array ranges exchanges exactly their contents | SwapModel | list lemmas | proved |
| C50 | intersecting lifetimes covers exactly the common places | LifetimeModel: Paths_inter; LifetimeInter | places covered; refuted for a forgotten reset | partial |
| C51 | references judged not to intersect never conflict | LifetimeModel: Lifetime_hasInter | places covered | proved |
| C52 | field, dereference, join, mask and sharing transform the places a lifetime covers as the expression does | LifetimeModel: Lifetime_op_*; LifetimeOps | places covered | proved |
| C53 | a lifetime answers which variables, arguments, temporaries and statics it names | LifetimeModel: queries | places covered | proved |
| C54 | canons, targets and addresses of functions are read back as they were written | CanonModel: targets and addresses | parsing inverts printing | proved |
| C55 | expressions are parsed by their precedence, unambiguously, and parsing ends | ParserModel.v: expressions of parser.fu, on the tokens of LexerModel; explicit index and warnings left | ParserSpec.v: trees, spelling, precedence table, meaning; soundness (ParserSound) by induction on steps, completeness (ParserComplete) by induction on trees, ends and in bounds (ParserTotal) with steps (warnings + 1) * tokens, more steps change nothing (ParserFuel) | proved |
| C56 | builds load, order and solve modules rightly; incremental rebuilds leave nothing out of date | CompileModel.v: compiler.fu and the module table of context.fu; the lexer and parser, path resolution and the solver are arguments | CompileSpec.v: imports on disk, good programs, uses, up to date, stale; an invariant of the module table kept by loading (CompileProofs, by induction on fuel with the stack of files being loaded), by storing outputs level by level, by pruning (CompileWatch), and over histories; uniqueness of an up-to-date table by induction on depth | proved |
| C57 | name lookup is lexical, whatever was looked up or called before | ScopeModel.v: scope.fu search with its three bands, skips and cache bit, and the solver's scope handling as a machine of events | ScopeSpec.v: environments as plain lists (lexical_step); a simulation (ScopeSim) whose invariant gives each position the view it was declared with: every scope that sees a position agrees with its view below it, and a cache bit only says what that view says; search itself by induction on the position (ScopeProofs) | proved |
| C58 | scope lists, exports and local numbering | ScopeModel.v: each, count, reveach, ScopeSkip_push, collect, the other searches, create_local | ScopeSpec.v: hidden, tidy_skips, lists_visible; by induction on skips, positions and declarations (ScopeMore) | proved |
| C59 | threads sharing vec blocks see their own values | ArcThreads.v (small-step threads, every memory access its own action), ArcThreadsSpec.v | an invariant over all reachable states, by induction on the run: the counter of a block plus one equals the vecs and pending operations that hold a reference | proved |
| C60 | accesses to shared vec memory are ordered | ArcThreadsSpec.v (happens-before, conflict, race) over the traces of ArcThreads.v | the same induction, with for every pair of conflicting actions either an order or one of the two excuses; the excuses are shown real by runs | partial |
| C61 | file::write writes all or says so | PosixSpec.v (the system: names, files, descriptors, which calls may fail or fall short), PosixModel.v (programs that make system calls) | weakest preconditions over every answer of the system, with an invariant for every crash point | proved |
| C62 | file::read gives the contents or says so | PosixSpec.v (the system: names, files, descriptors, which calls may fail or fall short), PosixModel.v (programs that make system calls) | weakest preconditions over every answer of the system, with an invariant for every crash point | partial |
| C63 | fs::mkdir_p makes the missing directories | PosixSpec.v (the system: names, files, descriptors, which calls may fail or fall short), PosixModel.v (programs that make system calls) | weakest preconditions, induction on the number of missing directories | partial |
| C64 | atomic_write is all or nothing | PosixSpec.v (the system: names, files, descriptors, which calls may fail or fall short), PosixModel.v (programs that make system calls) | an invariant over all interleavings: at which stage each writer is and which descriptor it owns | proved |
| C65 | An import means the nearest file | ResolveSpec.v (directories above, nearest file, naming conventions, clashes), ResolveModel.v (resolveFile with its cache as a function) | invariant: every cache entry is the meaning of some lookup of that path; a weaker invariant (entries exist and keep the last part) for histories with clashes | partial |
| C66 | spawn plumbs the child's streams and leaks no descriptor | SpawnSpec.v (descriptor tables, what POSIX says of posix_spawn's file actions and exec), SpawnModel.v (pipe, both spawns, the cleanup paths) | one stream at a time: what its actions do to the table; then the three in sequence; closing what was opened restores the table | partial |
| C67 | spawn collects all of the child's output | CollectSpec.v (children as sequences of writes and closes, their output), CollectModel.v (a transition system of the child, two bounded pipes and the polling loop) | invariants over all interleavings (what was collected, what is in the pipe and what is still to come make up the output; where the loop can leave); a measure that every step decreases | partial |
| C68 | Event loop: a connection's bytes are delivered and its wake-ups are not lost | One registered connection: the kernel's receive queue, the peer, the one-shot registration with the state kept in the user data (packing is C40), and the loop's decision to close or to register again, with any handler as a list of calls interleaved with the peer's acts (SockModel). | Invariant over all histories (SockLemmas): what was sent is what was read followed by the queue; an open connection is armed for reading unless its end was seen, and then all was read; for output, the end seen implies that readability is kept, so the program is called. Counterexamples are concrete runs. | partial |
| C69 | Literals mean in the generated C++ what they mean in the program | LitModel.v transcribes the string/char escaping of codegen.fu, the typing of an integer literal under a hint (solver.fu), the sign folding of the parser and the text generated for arithmetic literals; LitSpec.v is an independent reader of C++ string, character, integer and floating literals (prefixes, octal rule, suffix, literal type choice, unary minus). | Escaping: induction on the bytes with the reader's state generalised over what follows. Integers: the value theorem of C18-style literal parsing, then the C++ reader run over the rewritten text per radix. Refutations are concrete literals, evaluated. | partial |
| C70 | Names in the generated C++ mean what the program means by them | NamesModel.v transcribes valid_identifier, ID, localID with its search, binding, hoisting, TEMPVARs, block/loop/handler emission and rootNS over a tree reduced to its names; NamesSpec.v is C++ block scope and lookup on the emitted tree, NamesScope.v what the solver guarantees of the tree. | Mutual induction over expressions and statements: an invariant of the generator state (names taken, map, hoisted set), then lookup in the final environment of the statement, generalised over later hoisted declarations; pigeonhole for the name search. | partial |
| C71 | The C++ emitted for an expression computes what the expression means | A C++ expression grammar (recursive descent, as relations) and evaluator, a fu expression evaluator, and the generator's token output for every modelled node, with temporaries | Mutual induction over expressions and operand lists: each text parses, at unary strength, to a tree that evaluates as the expression does; determinism of the grammar by mutual induction over derivations makes that the only tree | partial |
| C72 | Arguments are evaluated in fu's order | a | r | partial |
| C73 | Generated statements keep their nesting | S | t | partial |
| C74 | Deferred statements run when their block is left | T | h | partial |
| C75 | Loops run as written, and jumps reach what they name | T | h | proved |
| C76 | What is to be done on entry to a loop is done once | T | h | partial |
| C77 | Jumps that the compiler removes are redundant | p | r | partial |
| C78 | Reading loses nothing and leaves nothing | T | h | proved |
| C79 | An embedded bitmap font is unpacked as it was packed | T | h | proved |
| C80 | Giving every glyph of a bitmap font the same box changes no glyph's looks | M | o | proved |

## What is modelled, and what is not

| file | modelled | not modelled |
|----|----|----|
| include/fu/vec.h, vec/*.h | all of the public operations of `fu::vec` for trivial and non-trivial elements, inline and heap storage, sharing; swap; concatenation only through append | exceptions of element constructors; `view_assign.h`; raw memory (elements are whole values) except the inline layout (C04) |
| include/fu/vec_range.h, view.h | ranges and views, clamping and the edits through a range | iterators |
| include/fu/mem/arc.* | block size rounding, reference counts as part of the heap; their atomic operations and memory orders for any number of threads (C59, C60) | the allocator's free lists |
| include/fu/decstr.cpp | integers | floats |
| include/lockfree/stack.hpp, include/par/parfor.cpp | push, pop, the mutex and condition variable build of parallel-for | weak memory; the C++20 atomic wait build |
| include/fu/vec/LEGACY_*.h | ==, <, find, rfind, match | |
| lib/hash.fu | Map: set, ref, get, has, remove, each, keys, clear, growth, Verify | hashing of values (any hash function is allowed) |
| lib/BitSet.fu, ascii.fu, path.fu, unicode.fu, tea.fu, rand.fu, ev/Pool.fu, ev/Loop.fu (user data packing only), ev/HTTP.fu (parser, writer, buffers) | as listed | the event loop itself, sockets, files |
| src/prelude.fu | find, split, join, replace, reverse, map, filter, sort helpers, comparison | operators which are compiler intrinsics |
| lib/file.fu (write, read), lib/fs.fu (mkdir_p), src/build.fu (atomic_write, tmpfile) | as listed, as programs that make system calls; the system itself is specified in PosixSpec.v: no hard links, a failing call has no effect except that close closes | mode bits, the Windows build, durability of data after power loss (no fsync is called) |
| src/lexer.fu, intlit.fu, levenshtein.fu, flat.fu, helpers.fu (codecs), usage.fu, lifetime.fu, canon.fu, types.fu, testdiff.fu | as listed | error messages |
| lib/ev/Loop.fu (one connection) | SockModel | 60-77, 589-621, 658-690, 697-824, 1161-1184, 1317-1366 | the Linux branch; one socket; the descriptor table and batches of events are not in this model; `err.retry_later` (undefined in lib/Errno.fu) is read as should_retry_later |
| lib/spawn.fu (collecting spawn, close, fu_waitpid) | the polling loop and the child as a transition system, pipes of bounded capacity | children that read, grandchildren holding the pipes, one string for both streams |
| lib/spawn.fu (pipe, spawn with Child) | the descriptors of parent and child; posix_spawn and exec as POSIX specifies them | signal masks, the command line, the macOS pipe2 shim, parents without standard streams |
| src/codegen.fu (string, char and integer literals: 348-381, 684-690, 2132-2178, 2810-2871), solver.fu:5961-6017 (literal types), parser.fu:2183-2202 (sign folding) | these functions, for the built-in arithmetic types | str_ name dedupe by digest, real literals, user types |
| src/codegen.fu (localID, binding, cgBlock hoisting, cgLet, cgLoop, cgTryCatch, TEMPVARs, rootNS, valid_identifier), src/cpp.fu (ID) | where each name is chosen, declared and used; trees reduced to names, counters unbounded | types, values, labels, fields, global definitions |
| src/codegen.fu (expressions: cgNode, cgNot, cgIf, cgAnd, cgOr, via, cgAndOr_concat, binSkipParens, emitPrefixOp, emitPostfixOp, emitBinaryOp, unpromote) | ExprModel.v: the tokens emitted for every expression form, in the plain and M_PARENS modes, with temporaries and their numbering; ExprSpec.v: C++'s expression grammar and evaluation | references (ptr_flip), copies and moves, ooe_header, discarded arguments, M_STMT, blocks as expressions; evaluation order of C++ operands is taken left to right |
| src/module.fu (argsForward, argsReverse), src/solver.fu (ensureArgSequencing, one call), src/codegen.fu (cgCall: sequencing, isPointlessMustSeq) (C72) | both traversals with numbering and resumption, the sequencing mask with its 32 bits, which arguments go into temporaries | how an argument's reads, writes and moves are collected (taken as a sound footprint), RTL calls in C++, the BUG cross-check, the text of temporaries |
| src/codegen.fu (cgStatements, cgBlock as statements, blockWrapSubstatement, cgIf/cgAnd/cgOr/cgLoop/cgTryCatch/cgJump as statements, cgNodes) (C73) | the tokens with line breaks, optional braces, else-if chains, labels of blocks and loops, declarations of temporaries as lines | text of expressions (C71), block expressions, preheaders, defer, pragmas, the error variable of catch, choice of break/continue/goto, BUG checks |
| include/fu/defer.h, src/codegen.fu (cgDefer), src/solver.fu:5376-5387 | the three destructors with the count of uncaught exceptions, the order in which a block's objects are destroyed, exceptions out of destructors, try/catch, loops; the rewriting of a trailing deferred statement | the values of statements, captures of the lambda, objects other than deferred statements in the block; exits out of the lambda (the C++ has a return there) |
| src/codegen.fu (cgJump, cgBlock, cgLoop, cgIf: control flow) | which of break, continue and goto is generated, names of labels, where labels stand and when they are left out, the kinds of loop | values of blocks, jumps with a value, expressions that contain jumps (GNU statement expressions), hoisting of locals |
| src/codegen.fu:3187-3247 (cgLoop: preheaders) | the rewriting into a block, the guard and the loop that tests at its end, the helpers that the new blocks inherit | deferred statements on entry (they run after the loop, since the block is extended over it), hoisting |
| src/solver.fu (propagateType: if, and/or, jump, block, tryInjectJumps; push) | which jumps are dropped, redirected or moved into branches, `a && never` and `a || never` to if, unwrapping of single item and of tail blocks; label use is the occurrence of a kept jump, is_never is read off the expression | types and their relaxation, discarding, defer, unwrap, copy-or-move and postdominators, jumps with irrelevant values (5182-5201, 5226-5238) |
| lib/FD.fu (read, read_exhaustive, read_discard), lib/exec.fu | DrainModel.v: all of it, over a source specified in DrainSpec.v; a write outside the buffer's memory is a fault, the capacity after append is arbitrary | close and write of FD.fu, 31-bit sizes, stdio's own buffer and read errors of fread (exec does not look at ferror), the shell |
| lib/ui/EmbeddedBitmapFont.fu | FontModel.v: bytes_to_bits, bits_to_bytes, hex, the codepoint tables of unpacking and emitting | measure and metrics, the emitted text around the literals |
| lib/ui/BitmapFont.fu | MonoModel.v: make_mono_bounds, each and count, with assertions and checked indices | i16 wrap-around of coordinates and widths |
| src/context.fu (resolveFile, both) | all of it; whether a file exists is a predicate that does not change, ctx.fuzzy and ctx.files are functions | the file system changing between two lookups |
| src/parser.fu, solver.fu, codegen.fu, build.fu, compiler.fu, tests.fu | see the table above for what is covered | the rest |

## Findings: where the code does not do what one relies on

Each is shown in the model, by a `_refuted` theorem, an example or a hypothesis of a theorem.

vec and ranges
* Inline layout: elements of 5, 7, 13, 14 and 15 bytes overlap the control word (`inline_elements_clear_of_control_word_refuted`).
* splice_copy/append_copy which replace all of a vec by a view that starts at its own storage do nothing (`splice_copy_whole_refuted`).
* `fu_ARC::unique` is a relaxed load: a vec that finds itself the only owner left writes in place without being ordered after the reads of the thread that dropped the other copy, a data race on weakly ordered machines (`vec_threads_relaxed_check_races`); with an acquire load there is none (`vec_threads_no_race_on_blocks_with_acquire`).
* Copying a vec stores to the source's PACK word through `const`: two threads that were lent the same vec race when one copies it (`vec_threads_copy_of_borrowed_races`).
* The sum of sizes overflows an int before the allocator can refuse it; a release build `insert(i > size)` writes at i unclamped.
* `operator=(vec&&)` destroys the target first: moving a vec to itself is a use after free.
* A vec moved from by splice or append keeps its elements when inline or trivial-but-noncopiable, and is empty otherwise.
* vec_range: append with del > 0 deletes what follows the range (`range_append_del_refuted`); splice asserts a strict bound.
* `slice(vec&&, start, end)` overflows for end = INT_MIN.
* legacy `operator==` compares as many elements as there are size bytes, and same addresses without lengths (`legacy_eq_refuted`); rmatch reads past the end.

library
* hash Map: growing a completely full index (of four slots or more) can strand an entry at a distance no probe reaches: the key is lost, and set again after a removal it is present twice (`hash_map_is_a_finite_map_refuted`, `hash_map_iteration_refuted`).  With a free slot, or at most two slots, growing is always sound (`hash_map_growing_a_roomy_index`), so this is the only way to break a map.  `hash + probe` overflows for hashes close to 2^31.
* BitSet: add_range can overwrite or trap at its tail; has_missing reads out of bounds; negative indices trap.
* TEA: the hash of bytes ignores their number.
* unicode: the bound check is off by one (`decode_in_bounds_refuted`); overlong forms are accepted.
* path: normalize drops pairs of leading "..", loses the root of "/..", "/a/..", "/."; quirks of noext/dirname.
* prelude: find's index overflows for huge inputs; find with a negative start shifts its result; `<>` on strings is shortlex; float == and <> differ on zeroes and NaN; remove(pred) on trivial items always asserts.
* lock-free stack: a debug assertion in pop can fail on reused memory (`pop_assertion_refuted`); the tag wraps (`aba_without_the_tag_refuted`).
* parallel_for: size 0 runs one empty batch; per_batch 0 divides by zero.
* HTTP: a partial head is always fatal (`http_partial_head_refuted`, `http_split_arrival_refuted`); a pipelined request is skipped (`http_pipelining_refuted`); a body over 999999999 bytes gets Content-Length 0 (`http_long_response_length_refuted`).
* file::read does not advance its buffer: when a read falls short (a pipe, a signal, more than 0x7ffff000 bytes) the next one overwrites it, and success is reported (`file_read_success_means_the_contents_refuted`); with a size given, a longer file may be cut off silently (`file_read_of_known_size_refuted`).
* file::write takes a write of nothing for success (`file_write_of_nothing_is_success`).
* mkdir_p never forgets the first ENOENT: with two directories missing it makes both and reports failure, with three or more it gives up half way (`mkdir_p_reports_success_refuted`, `mkdir_p_makes_the_directory_refuted`).
* spawn: an ignored stream is closed in the child, not /dev/null: it is opened with O_CLOEXEC (`an_ignored_stream_is_dev_null_refuted`); `stdin: Parent` does the same, as descriptor 0 counts as none (`the_parents_input_is_handed_on_refuted`).
* spawn, collecting: the loop ends as soon as neither stream gives data, so a child that closes stdout and goes on with stderr loses output (`all_output_is_collected_refuted`) or deadlocks with its parent (`collecting_never_stalls_refuted`); an interrupted wait is reported as success without a status (`the_status_is_the_childs_refuted`).
* lib/ev/Loop.fu (C68): `WantsWriteASAP` is not sticky, so when the peer has finished sending and a later
  event finds the socket not writable, a handler that writes only when told it can (lib/ev/HTTP.fu) leaves
  nothing that keeps the connection open: it is closed with the rest of the response unsent
  (closed_after_everything_was_said_refuted).  `will_read_later` does not keep a connection open whose peer
  has finished (reading_later_loses_input_refuted); `close` does not wait for writes, although HTTP.fu's
  comment says so (close_waits_for_writes_refuted); EPOLLRDHUP stays registered after the end was seen, so a
  half-closed peer that does not receive makes the loop spin (loop_sleeps_refuted).
* Not modelled, seen while reading: spawn::close waits for the child before it closes the child's input; fs::executable copies PATH_MAX bytes instead of those it got; readdir's check of closedir is inverted.

compiler
* lexer: an unterminated block comment is accepted; `0b12` is `0b1` then `2`; `0_1` escapes the leading zero check; `0xp1` is a real (examples in LexerProps.v).
* parser: after a whitespace warning on an operator which is not taken, the parser goes back to the outer operator and parses the same again, until warnings run out: `a * b+c` is never accepted (`misleading_whitespace_is_never_parsed`); `a[i](x)` and `a++(x)` lose what is called (`call_of_an_index_loses_the_callee`); `a |> b + c` is `+(a, b, c)` (`pipe_into_an_operator`); the type after `->` or `=>` is a unary operand, so `a -> b * c` is `(a -> b) * c` (`type_is_unary`); the automatic name of a conditional argument is that of its condition.
* intlit: `:` to `?` are accepted as hex digits; parse10s32 overflows at INT_MIN.
* watch mode: a file which was once tried - a misspelled import, or a file which is no longer imported and is then edited or deleted - stays in the module table without a tree, is solved ("COMPILER BUG: solve: Unexpected sof"), and fails every later rebuild (`a_rebuild_succeeds_where_a_clean_build_does_refuted`, `a_deleted_unused_file_is_harmless_refuted`, `a_missing_file_blocks_every_rebuild`); a new file which an unchanged import would now mean is not noticed (`a_nearer_file_is_noticed_refuted`).
* imports: the cache of resolveFile is keyed by directory and name run together; `import n` in a directory called n never finds n/n.fu in the library or further up (`imports_find_the_nearest_file_refuted`), and `ev::Map` in p/ changes what `Map` in p/ev/ means (`the_order_of_imports_matters_refuted`).
* codegen: `0_10` is ten in the source and `010`, eight, in the generated C++ (`0_9` does not compile); `0o17` as an f64 becomes `017.0`, seventeen; `0x10` as an f64 becomes `0x10.0`, ill formed; `-0x80000000` is the least i32 in the source and a positive unsigned in C++; `-0o17` is emitted unrewritten and does not compile; an f64 hint accepts integers no f64 holds (C69).
* codegen: a global used earlier in a statement than a hoisted `let` of its name is captured by it; a block in a catch handler that yields a reference to the caught string re-declares it as a second, empty variable (err is never added to `_declared`); locals called `_0`, `BL_0_v` or `o_0` clash with the generator's own; `do` and `dO` both become `dO` (C70).
* codegen, expressions: emitPrefixOp puts an operator directly before its operand's text, so `-(-x)` is emitted as `--x` (C71_minus_of_minus_refuted); a field of a prefix operator's result, `(-v).x` with the program's own `-`, is emitted as `-v.x` (C71_field_of_operator_refuted); emitBinaryOp skips unpromote together with the parentheses, so `if (a + b)` on u8 tests the int sum (C71_narrow_condition_refuted); the prelude's prefix `-%`, `__native("-")` with one argument, reaches emitBinaryOp, which requires two (read, not modelled).
* codegen (C72): in `f(i++, i)` with a small `i` the solver marks `i++` but cgCall drops the temporary since the rest is a plain variable; the variable is passed by value, so C++ may read it first (found by reading, not run). Effects outside variables (printing) are not sequenced at all.
* codegen (C73), by reading, not run: `if (a) while (b) while (c) x; else y;` gets a stray `;` before `else`; `while (a) :L while (b) while (c) break :L;` puts the label after the outer loop, so the break leaves both; a do-loop left by name is written without the `;` after its condition.
* defer: a deferred statement at the end of its block becomes an ordinary one, so an error out of it can be caught, while out of any other deferred statement it ends the program (`C74_trailing_throw_refuted`; the comment at solver.fu:10388 says such statements must not throw, but nothing checks it). Read, not run.
* on enter: a single statement on entry to a loop is wrapped in a block that inherits its helpers, so a bare jump there to a label other than the innermost loop's reaches the end of that block: only the loop is skipped (`C76_bare_jump_refuted`; solver.fu:5444-5448 unwraps single item blocks, so `on enter { break :a; } then` is affected too). The block on entry is extended over the loop, so leaving it by its own name leaves out the loop as well (`C76_own_label_refuted`; its scope is meant to extend over the loop, so this may be intended). Read, not run.
* redundant jumps: a jump in the expression of another jump to a block that is inside the other's target is taken for redundant and dropped, since only the block numbers are compared (solver.fu:5162): in `while (..) return c ? x : continue; y` the function returns an empty value when c is false (`C77_return_or_continue_refuted`; whether later type checks reject it is outside the model).
* scope: LocalScope_union does not show all that the callee sees - a range is never split (`a_union_shows_what_either_sees_refuted`); the canSkipRest cache makes a lookup in an autocall lose meanings after an earlier lookup of the same name (`lookups_in_a_union_do_not_depend_on_earlier_lookups_refuted`), and with higher-order calls a lookup in an autocall can spoil later ordinary lookups (`lookups_in_a_union_do_no_harm_refuted`).
* usage: clz/ctz of an empty mask (`mask_region_refuted`); the tags of a struct leak into its fields' usage.
* lifetime: Paths_inter does not clear its accumulator (`lifetime_inter_refuted`); hasStatic takes some region numbers for a static (`lifetime_has_static_refuted`); Lifetime_hasInter is unsound when the paths of one region partly overlap (`lifetime_no_intersection_is_safe_refuted`); union commutes only up to places (`lifetime_union_commutes_refuted`).
* canon: with deep argument lists on both sides one matching argument is enough (`canon_accepts_only_what_matches_refuted`), mixed ones never match (`canon_accepts_all_that_matches_refuted`), acceptance is not transitive; tryIntersect checks the wrong direction; packed targets collide beyond 2^20 (`targets_are_distinct_refuted`).
* types: the common supertype of `zeroes` and `never` is never found: endless recursion (`super_type_ends_refuted`); is_rx_resize tests the wrong qualifier; assignability is not transitive (`type_assignability_is_transitive_refuted`).

## Testing the theorems

`seeded/LOG.jsonl` lists the wrong programs tried: the definition edited, the edit, the claim it breaks, and which proofs failed.
An edit which no theorem notices either led to a stronger theorem (`tightened`) or does not change what the API shows (`note`).
