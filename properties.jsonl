{"id": "C01", "title": "fu::vec has value semantics despite sharing storage", "statement": "Copying a vec and then mutating either copy (push, pop, insert, shift, splice, append, resize, clear, write through mut_ref/data_mut) never changes the elements observed through any other vec.", "quantifier": "every number of vecs, every finite sequence of copies, moves, destructions and mutations over them, every element list", "why_tests_cant": "sharing patterns (who shares a buffer, at which offset, with which refcount) are unbounded; tests sample a handful", "anchors": ["include/fu/vec.h: vec::vec(const vec&), _Splice, UNSAFE__MarkShared, slow_check_unique, data_mut", "include/fu/mem/arc.h: ARC_IncrementShared, ARC_DecrementShared, ARC_IsUnique"]}
{"id": "C02", "title": "fu::vec operations compute the list operation they name", "statement": "push/pop/unshift/shift/insert/splice/append/resize/grow/shrink/clear/slice on a vec with contents l leave exactly the contents the corresponding list operation gives (splice replaces del elements at idx with insert elements and keeps prefix and suffix in order), whatever the representation (small inline, unique heap, shared heap, shared tail view) was. Exception (shown false by splice_copy_whole_refuted): replacing the whole of a non-empty vec by a copied view that starts at its own storage but has a different length is taken for self-assignment and does nothing.", "quantifier": "every contents, every idx/del/insert in range, every representation and every capacity", "why_tests_cant": "the choice among in-place, move-left, move-right, realloc and copy-on-write paths depends on size, capacity, uniqueness and element triviality together", "anchors": ["include/fu/vec.h: _Splice, splice, push, pop, unshift, shift, insert, resize, grow, shrink, clear, append"]}
{"id": "C03", "title": "no leak, double free or use after free of vec buffers", "statement": "In any history each allocated buffer's refcount equals the number of vecs that reference it, a buffer is freed exactly when the last referencing vec lets go of it, and no operation ever reads or writes a freed buffer; after all vecs are destroyed no buffer remains.", "quantifier": "every history of vec operations over any number of vecs", "why_tests_cant": "refcount errors appear only along particular operation interleavings; sanitizer runs check only the executed ones", "anchors": ["include/fu/vec.h: _Dealloc, _Splice, clear, ~vec", "include/fu/mem/arc.cpp: ARC_ALLOC, ARC_DEALLOC"]}
{"id": "C04", "title": "the packed vec representation is unambiguous", "statement": "Packing a (big) size/capacity/shared triple or a small size into the two control words and unpacking returns the same triple; a big vec is never mistaken for a small one nor the reverse; the reported size never exceeds the reported capacity, and the usable capacity never exceeds what was allocated.", "quantifier": "every 31-bit size, every capacity the allocator can return, every element size, shared or unique", "why_tests_cant": "2^63 encodings; the nibble-based discrimination fails only for special capacities", "anchors": ["include/fu/vec.h: UNSAFE__Pack, UNSAFE__Unpack, UNSAFE__EnsureActualLooksBig, unsafe_isBig, UNSAFE__getSmallSize"]}
{"id": "C05", "title": "reserve makes a vec unique and large enough without changing it", "statement": "After reserve(n) the vec holds the same elements, its capacity is at least n and its storage is not shared with any other vec, so writes up to n elements need no further allocation.", "quantifier": "every vec in every reachable heap, every n", "why_tests_cant": "depends on the sharing history of the buffer", "anchors": ["include/fu/vec.h: reserve, data_mut, UNSAFE__Reserve, _Splice"]}
{"id": "C06", "title": "buffer size rounding never under-allocates", "statement": "The allocator rounds a byte request up to a block that holds the header and the request, reports a usable size at least the request, and aborts instead of wrapping when the request is too large; block sizes are powers of two from 128 bytes.", "quantifier": "every 32-bit byte request", "why_tests_cant": "off-by-one and wrap-around cases near 2^31 cannot be executed in tests", "anchors": ["include/fu/mem/arc.cpp: ARC_ALLOC, RoundUp", "include/fu/mem/arc.h: ARC_ALLOC"]}
{"id": "C07", "title": "views and slices stay inside their vec and agree with list slicing", "statement": "get_view/get_view_start0/get_view_mut/slice with any start/end (including negative or past the end) either reproduce exactly the sublist the documented clamping gives, or are rejected; they never address an element outside the vec. Exception: slice(vec&&,start,end) subtracts end from size in signed 32 bits before clamping, so end = INT_MIN is undefined behaviour (slice_move_int_min_overflows).", "quantifier": "every vec length and all pairs of signed 32-bit bounds", "why_tests_cant": "2^64 bound pairs; clamping order matters at the extremes", "anchors": ["include/fu/view.h: get_view, get_view_start0, get_view_mut", "include/fu/vec/LEGACY_slice.h: slice"]}
{"id": "C08", "title": "mutating a range view edits only that range", "statement": "Resizing, pushing, popping, inserting, splicing, appending or clearing through a vec range view changes the underlying vec to prefix ++ (operation applied to the range) ++ suffix, with prefix and suffix untouched, and the range then denotes exactly the edited middle. Exceptions: append through a range with a deletion count > 0 deletes elements after the range instead of the range's own tail (range_append_del_refuted), and a whole-vec range inherits C02's self-assignment exception.", "quantifier": "every vec, every range inside it, every operation with in-range arguments, every sequence of them", "why_tests_cant": "left/right trims are recomputed after each edit; errors show only for unequal trims and sequences", "anchors": ["include/fu/vec_range.h: vec_range_mut, Left, Right, splice, append, append_copy, grow, shrink, resize"]}
{"id": "C09", "title": "decimal printing is exact for every integer", "statement": "u64dec/i64dec produce the canonical decimal digits (no leading zeros, '-' exactly for negatives) denoting the argument; parsing them back yields the argument.", "quantifier": "every 64-bit unsigned and signed integer including the minimum", "why_tests_cant": "2^64 inputs", "anchors": ["include/fu/decstr.cpp: u64dec, i64dec", "lib/decstr.fu"]}
{"id": "C10", "title": "the lock-free stack never loses, duplicates or invents nodes", "statement": "Under any interleaving of concurrent pushes (of single nodes or chains) and pops, every node is at all times either owned by exactly one thread or in the stack exactly once, and each successful operation takes effect atomically on an abstract LIFO; in particular a pop that observed a node that was popped and re-pushed meanwhile (ABA) fails. The tag has 16+ALIGN_BITS bits, so this assumes no pop sleeps through 2^(16+ALIGN_BITS) or more successful updates between reading head and its exchange; without that assumption it is refuted. A debug build's alignment assertion inside pop can fail when a popped node's memory has been reused (refuted by example).", "quantifier": "any number of threads, any schedule, any number of operations short of wrapping the tag", "why_tests_cant": "interleavings are exponentially many and ABA needs precise timing", "anchors": ["include/lockfree/stack.hpp: push, try_pop, Node tagging"]}
{"id": "C11", "title": "parallel-for splits the index range exactly", "statement": "parfor(size, min_per_batch) hands out non-empty consecutive batches that together cover [0,size) with no overlap and no gap, each at least min_per_batch long (unless it is the only one), and uses no more than the worker-derived maximum. With size 0 there is one, empty, batch. The helper par.map built on it gives the mapped array whatever the order in which the batches' visits happen.", "quantifier": "every size, per-batch minimum and worker count", "why_tests_cant": "division remainders for arbitrary triples", "anchors": ["include/par/parfor.cpp: parfor_rng", "include/par/parfor.hpp"]}
{"id": "C12", "title": "parallel-for returns only after every batch has run, and always returns", "statement": "The calling thread leaves the wait only when every batch has finished, no wakeup is lost, and no worker touches the shared counter block after the caller may have destroyed it.", "quantifier": "every number of batches and every interleaving of caller and workers, including spurious wakeups", "why_tests_cant": "schedules cannot be enumerated; lost wakeups are timing-dependent", "anchors": ["include/par/parfor.cpp: PBC_Wait, PBC_Decrement, parfor_rng"]}
{"id": "C13", "title": "hash Map behaves as a finite map", "statement": "After any sequence of set/ref/remove, get/has of a key returns the value last set for it and not removed since, or the default when there is none; other keys are unaffected by an operation on one key.", "quantifier": "every history of operations, every key type with lawful equality, every hash function", "why_tests_cant": "collision patterns and rehash timing depend on the hash function and history", "anchors": ["lib/hash.fu: Map, get, set, ref, remove, route, probe, make_fair, increase_capacity, compact"]}
{"id": "C14", "title": "hash Map's probe invariants hold in every reachable state", "statement": "At every point between operations the index is a power of two long (or empty), each probe distance is below the maximum, never more than one above its left neighbour's, and every stored entry is reachable by exactly one probe slot and chain position.", "quantifier": "every history, every hash function", "why_tests_cant": "robin-hood displacement and backward-shift removal interact only in rare layouts", "anchors": ["lib/hash.fu: Verify, make_fair, compact, remove"]}
{"id": "C15", "title": "iterating a hash Map visits each live entry exactly once", "statement": "each/keys over a Map enumerates every present key exactly once with its current value, and nothing else; the reported size equals the number of present keys.", "quantifier": "every history", "why_tests_cant": "the dense array is re-ordered by swap-removal", "anchors": ["lib/hash.fu: each, remove"]}
{"id": "C16", "title": "BitSet is a finite set of naturals", "statement": "add/has/remove/clear/union/difference/popcount/each/has_inter/has_missing agree with the mathematical set operations on non-negative indices. Two documented exceptions, both refuted as stated and proved under the exact condition: add_range(end) is only correct on a set whose members are all below end (otherwise it traps, or drops the members sharing the last byte), and has_missing(a,b) reads past b when a has a larger member than b's last byte and nothing is missing. Negative indices always trap.", "quantifier": "every set, every non-negative index, every pair of sets", "why_tests_cant": "byte boundaries and unequal lengths", "anchors": ["lib/BitSet.fu: add, has, remove, clear, popcount, each, negated, has_inter, has_missing, add_range"]}
{"id": "C17", "title": "BitSet representation is canonical", "statement": "Whatever sequence of operations built it, a BitSet never ends in a zero byte, so two BitSets with the same members are equal as values.", "quantifier": "every history of operations", "why_tests_cant": "equality of representation depends on the whole history", "anchors": ["lib/BitSet.fu: remove, clear, trim"]}
{"id": "C18", "title": "path normalisation preserves the meaning of the path", "statement": "normalize(p) names the same location as p under component-wise interpretation of '.', '..' and empty components, is idempotent, and keeps absolute paths absolute. As the code stands this holds for relative paths that climb at most one level above their start and for absolute paths that never step above the root and do not denote the bare root without a final slash; the exact result in every case (leading '..' cancel in pairs: ../../x gives x; an absolute path stepping above the root becomes relative: /../a gives a, /a/.. gives the empty path) is part of the claim, and the unrestricted claim is refuted by example.", "quantifier": "every string", "why_tests_cant": "unbounded component sequences; '..' at the root", "anchors": ["lib/path.fu: normalize, relative, join, ext, noext, dirname, filename"]}
{"id": "C19", "title": "path splitting is lossless", "statement": "dirname(p) ~ filename(p) = p and noext(p) ~ ext(p) = p for every path; filename contains no slash; ext contains a dot only at its start. As the code stands: when the last component has a dot noext ~ ext = p, otherwise both ext and noext are empty; dirname ~ filename = p unless p ends in a slash, when dirname skips that slash; the unrestricted claim is refuted by example.", "quantifier": "every string", "why_tests_cant": "all placements of '/' and '.'", "anchors": ["lib/path.fu: dirname, filename, ext, noext"]}
{"id": "C20", "title": "relative/join invert each other", "statement": "join(a, relative(a, b)) resolves to b for normalised absolute paths a, b. Here a is a directory written with its final slash (for a file's path, relative measures from the directory it is in), and a, b are both absolute or both relative, made of proper names; the result is then b itself, character for character.", "quantifier": "every pair of paths", "why_tests_cant": "shared-prefix logic at partial component matches", "anchors": ["lib/path.fu: relative, join"]}
{"id": "C21", "title": "UTF-8 encoding and decoding round-trip", "statement": "Decoding the encoding of any sequence of code points below 0x110000 returns that sequence; every encoding is 1-4 bytes with the standard lead/continuation pattern; decoding never reads past the end of the input. (Amended after modelling: the last-byte bound check is off by one, so an input that lacks exactly the last byte of its final sequence is read one past its end; the decoder also accepts overlong forms, surrogates and lead bytes above 0xf4, and swallows the byte that breaks a sequence. The in-bounds claim is proved with that case excluded and refuted with it.)", "quantifier": "every code point sequence; every byte string for the safety part", "why_tests_cant": "0x110000^n inputs; truncations at each byte", "anchors": ["lib/unicode.fu: utf8 encode, codepoints decode"]}
{"id": "C22", "title": "TEA mixing is a permutation and digests are collision-free encodings", "statement": "Each TEA round function is a bijection of the 64-bit state for a fixed key, and digest62/digest16 map distinct states to distinct strings of fixed length.", "quantifier": "all 2^64 states and all keys", "why_tests_cant": "2^64 states", "anchors": ["lib/tea.fu: r16, hash, digest62, digest16"]}
{"id": "C23", "title": "the random generator never gets stuck", "statement": "The xorshift step is a bijection on 64-bit states that fixes only zero, so a nonzero seed never reaches zero; bounded draws stay in range.", "quantifier": "all 2^64 states", "why_tests_cant": "2^64 states", "anchors": ["lib/rand.fu"]}
{"id": "C24", "title": "shuffle returns a permutation", "statement": "shuffle(arr, seed) contains exactly the same elements with the same multiplicities, and never indexes out of range.", "quantifier": "every array and seed", "why_tests_cant": "all lengths and random choices", "anchors": ["lib/shuffle.fu: shuffle"]}
{"id": "C25", "title": "ASCII case mapping and trim", "statement": "upper/lower preserve length, change only ASCII letters, are idempotent and inverse on letters; trim removes exactly the maximal whitespace prefix and suffix.", "quantifier": "every byte string", "why_tests_cant": "all strings", "anchors": ["lib/ascii.fu: lower, upper, trim", "src/helpers.fu: trim"]}
{"id": "C26", "title": "find returns the first occurrence", "statement": "find(haystack, needle) returns the least index at which needle occurs, or -1 exactly when it does not occur; bounded variants restrict to the given window; starts/ends/has agree with prefix/suffix/occurrence. Contract: haystack and needle lengths together at most 2^31 (beyond that the int index of the skip loop can overflow, find_index_can_overflow); start/end within the array.", "quantifier": "every pair of sequences and start/end bounds", "why_tests_cant": "the skip-ahead search can jump over a match only for special repetitions", "anchors": ["src/prelude.fu: find, starts, ends, has"]}
{"id": "C27", "title": "the generic comparison is a total order consistent with equality", "statement": "<> on arrays is antisymmetric, transitive and total, and is zero exactly when the arrays are equal element-wise; == agrees with it. The order is shortlex (shorter first) on arrays and trivial-fields-first on structs. On primitive floats <> compares bit patterns and == is IEEE equality: they differ exactly on signed zeros and NaNs (float_eq_disagrees_only_on_zeros_and_nans).", "quantifier": "every triple of arrays", "why_tests_cant": "transitivity ranges over all triples", "anchors": ["src/prelude.fu: <>, ==, <, >"]}
{"id": "C28", "title": "join inverts split", "statement": "Joining the pieces of split(s, sep) with sep gives s back; no piece contains sep; replace(s, a, b) equals join(split(s,a), b). Splitting on an empty separator yields the whole string as one piece.", "quantifier": "every string and non-empty separator", "why_tests_cant": "overlapping separator occurrences", "anchors": ["src/prelude.fu: split, join, replace"]}
{"id": "C29", "title": "reverse, map, filter and the in-place array helpers", "statement": "reverse is an involution that permutes positions i -> n-1-i; all/some/map/each agree with their list counterparts; resize keeps the common prefix. remove(pred) on arrays of trivial items always ends in assert(false) (remove_filters).", "quantifier": "every array", "why_tests_cant": "all lengths, including even/odd midpoint", "anchors": ["src/prelude.fu: reverse, map, all, some, resize"]}
{"id": "C30", "title": "varint encoding round-trips and is self-delimiting", "statement": "Parsing an encoded u32 returns the value and stops exactly at its end, whatever follows; distinct values have distinct encodings; no encoding is a prefix of another.", "quantifier": "every u32 and every following byte string", "why_tests_cant": "2^32 values times arbitrary suffixes", "anchors": ["src/helpers.fu: appendVarint, parseVarint", "src/lifetime.fu: append7bit, parse7bit"]}
{"id": "C31", "title": "decimal parsing helpers are exact", "statement": "parse10u32/parse10s32 return the value of the decimal digits at the cursor (mod 2^32 if too long) and advance the cursor exactly past them. (Amended: parse10s32 of -2147483648 overflows a signed int.)", "quantifier": "every byte string and cursor", "why_tests_cant": "all strings", "anchors": ["src/helpers.fu: parse10u32, parse10s32"]}
{"id": "C32", "title": "lifetime paths round-trip through their string encoding", "statement": "Decoding an encoded set of region paths yields exactly the paths encoded, in order.", "quantifier": "every list of paths with offsets/counts in range", "why_tests_cant": "nested variable-length encodings", "anchors": ["src/lifetime.fu: appendPaths, parsePaths, appendSubRegion"]}
{"id": "C33", "title": "lifetime union is a semilattice join", "statement": "Lifetime union is idempotent, commutative and associative, contains both arguments' regions and nothing else, and keeps regions sorted without duplicates. Commutativity and associativity are of the places denoted: the order of the paths within a region may differ.", "quantifier": "every pair/triple of lifetimes", "why_tests_cant": "all interleavings of two sorted region lists", "anchors": ["src/lifetime.fu: Lifetime_union, Lifetime_inter, Paths_union"]}
{"id": "C34", "title": "usage masks shift losslessly between a struct and its fields", "statement": "Extracting a field's usage from a struct usage mask inverts inserting it; shifts keep the tag bits and never disturb other fields' bits.", "quantifier": "every mask, offset and width within the word", "why_tests_cant": "2^31 masks times offsets", "anchors": ["src/usage.fu: USAGE_shiftLeft, USAGE_shiftRight, USAGE_fieldUsageFromStructUsage, USAGE_structUsageFromFieldUsage"]}
{"id": "C35", "title": "flat Set/Map/CountedSet are a finite set/map/multiset", "statement": "After any history of operations, has/get/total report exactly the mathematical set/map/multiset; the storage stays strictly sorted by the comparison; bulk union/intersection/difference/merge agree with the set operations.", "quantifier": "every history, every totally ordered key type", "why_tests_cant": "binary-search boundary positions over all lengths", "anchors": ["src/flat.fu: bfind, Set, Map, CountedSet, add, remove, keep, inter, union, diff, has_inter, misses_some, merge"]}
{"id": "C36", "title": "levenshtein is the edit distance", "statement": "levenshtein(a,b) is the least number of single-character insertions, deletions and substitutions turning a into b; it is symmetric and zero iff a = b.", "quantifier": "every pair of strings", "why_tests_cant": "minimality quantifies over all edit scripts", "anchors": ["src/levenshtein.fu"]}
{"id": "C37", "title": "the lexer terminates and accounts for its whole input", "statement": "For every source text lexing terminates; the token list starts with sof and ends with eof, token positions are within the file and non-decreasing, operators are recognised by longest match, and token texts are the source slices they cover.", "quantifier": "every byte string", "why_tests_cant": "all inputs, including malformed ones", "anchors": ["src/lexer.fu: lex"]}
{"id": "C38", "title": "integer literals are evaluated exactly or rejected", "statement": "A literal's reported value equals the mathematical value of its digits in its base with underscores ignored and sign applied, or an error is reported; the reported minimal widths are the least type sizes that hold the value. (Amended: the six characters between '9' and '@' pass as hex digits if the caller lets them in, which the lexer does not; a body with no digits is 0 with no error.)", "quantifier": "every literal text", "why_tests_cant": "overflow near 2^64 for every base", "anchors": ["src/intlit.fu: Intlit"]}
{"id": "C39", "title": "the slot Pool never hands out a live slot", "statement": "alloc returns an id that no live allocation holds, a freed id is reusable, freeing resets the slot, and ids handed out stay valid until freed.", "quantifier": "every alloc/free history", "why_tests_cant": "free-list order depends on the history", "anchors": ["lib/ev/Pool.fu"]}
{"id": "C40", "title": "event-loop user data packing round-trips", "statement": "Unpacking the packed (kind, state, fd, user) quadruple returns it whenever each part fits its field, and distinct quadruples never collide.", "quantifier": "all field values in range", "why_tests_cant": "2^64 words", "anchors": ["lib/ev/Loop.fu: ksfd_pack, ksfd_unpack"]}
{"id": "C41", "title": "HTTP request parsing distinguishes incomplete from invalid, and responses state their length", "statement": "A request head that has arrived only partly is reported incomplete (not fatal) until size limits are exceeded; a complete head is parsed to its method, path and header range; a response's Content-Length equals the body's length. As the code stands: a request that arrives in one piece and within the limits is served whatever follows it; a served request is genuine; a head that is not complete yet is rejected for good, never reported incomplete (the limit test compares a length with its own minimum); responses of up to 999999999 bytes of content state its length, longer ones state 0; output reaches the socket in order, each byte once, whatever amounts it takes.", "quantifier": "every byte buffer and every split of a request into arrivals", "why_tests_cant": "all split points of all requests", "anchors": ["lib/ev/HTTP.fu: tryParseRequest, respond"]}
{"id": "C42", "title": "test-diff serialisation deduplicates stably", "statement": "The serialised list contains each distinct line once, in order of first occurrence.", "quantifier": "every list of lines", "why_tests_cant": "all duplicate patterns", "anchors": ["src/testdiff.fu: serialize"]}
{"id": "C43", "title": "compiler identifiers encode reversibly", "statement": "User-type canons and closure ids parse back to exactly what they were created from.", "quantifier": "every id/kind/module in range", "why_tests_cant": "all values", "anchors": ["src/usertypes.fu: createUserType, parseUserTypeCanon", "src/hacks.fu: ClosureID"]}
{"id": "C44", "title": "legacy vec equality is element-wise equality", "statement": "operator== on two vecs/views returns true exactly when they have the same length and equal elements. Exceptions found and proved: operator== compares only the first size BYTES, so it is element-wise equality exactly for one-byte elements (for wider elements it may report unequal vecs as equal), and two views starting at the same address compare equal even when their lengths differ (legacy_eq_refuted). operator<,>,<=,>= on byte strings are the lexicographic order with prefixes first. The legacy rmatch reads past the end (rmatch_reads_past_the_end).", "quantifier": "every pair of vecs, aliasing or not, every element size", "why_tests_cant": "aliasing prefixes of one buffer and multi-byte elements", "anchors": ["include/fu/vec/LEGACY_cmp.h: operator==, operator<"]}
{"id": "C45", "title": "type canons of generic patterns match soundly", "statement": "A pattern accepts a type canon only when every argument of the pattern accepts the corresponding argument; paren scanning of nested canons splits them into exactly the top-level parts.", "quantifier": "every pair of canons of any nesting", "why_tests_cant": "nesting depth and arity unbounded", "anchors": ["src/canon.fu: scan, eachSubPattern, isCanonAssignable"]}
{"id": "C46", "title": "type assignability is reflexive and transitive, and relaxing never adds qualifiers", "statement": "A type is assignable to itself; assignability composes; a relaxed type is a super-type of the original.", "quantifier": "every pair/triple of types", "why_tests_cant": "all qualifier combinations", "anchors": ["src/types.fu: isAssignable, try_relax, type_trySuper, type_tryIntersect", "src/quals.fu"]}
{"id": "C47", "title": "closure ids decode to what they were made from", "statement": "The id serialized from a closure's module id, revision, global id and local id parses back to exactly those four numbers, so two different closures never share an id.", "quantifier": "every module id, revision, positive global id and local id", "why_tests_cant": "2^128 combinations of the four numbers", "anchors": ["src/hacks.fu: serialize, tryParseClosureID", "src/helpers.fu: appendVarint, parseVarint"]}
{"id": "C48", "title": "user type canons decode to the type they were made for", "statement": "The canon created for a user-declared type, whatever its kind, base primitive and specialization suffix, parses back to exactly the module id and type index it was created from.", "quantifier": "every kind, base primitive, module id, index, specialization and hash", "why_tests_cant": "the full range of indices and arbitrary suffixes", "anchors": ["src/usertypes.fu: createUserTypeCanon, parseUserTypeCanon", "src/quals.fu: basePrimPrefixLen"]}
{"id": "C49", "title": "swapping arrays and array ranges exchanges exactly their contents", "statement": "swap of two ranges of different arrays, of any lengths and whatever surrounds them, leaves each range's content in the other's place and everything else where it was; swap(a, i, j) exchanges two elements.", "quantifier": "every pair of arrays and ranges", "why_tests_cant": "which range is longer and what follows it decide which of several memory moves happen", "anchors": ["include/fu/vec_range.h: swap_ranges, swap", "include/fu/mem/memswap.cpp: memswap", "include/fu/vec/view_swap.h: view_swap", "include/fu/vec.h: swap"]}
{"id": "C50", "title": "intersecting lifetimes covers exactly the common places", "statement": "The intersection of two lifetimes covers a place of a region iff both do, in whatever order the paths come.", "quantifier": "every pair of well formed lifetimes whose paths do not partially overlap", "why_tests_cant": "any number of regions, paths and levels", "anchors": ["src/lifetime.fu: Lifetime_inter, Paths_inter"]}
{"id": "C51", "title": "references judged not to intersect never conflict", "statement": "When the compiler's aliasing check says two references do not intersect, no place that one of them may write is a place the other may use, whatever their lifetimes and usage masks; without masks the check is exact, and the list of variables two lifetimes share is exactly those with a common place.", "quantifier": "every pair of lifetimes and usage masks", "why_tests_cant": "soundness over all paths, masks (aliasing modulo 29 slots) and places", "anchors": ["src/lifetime.fu: Lifetime_hasInter, Paths_hasInter, Lifetime_interLocids"]}
{"id": "C52", "title": "field, dereference, join, mask and sharing transform the places a lifetime covers as the expression does", "statement": "Taking a field, following a reference, descending into a returned path, masking by usage and sharing a lifetime give a lifetime that covers exactly the places the expression reaches (for a mask: at least every place touched through it and nothing the lifetime did not cover); usage shifted along paths keeps every slot of the root that a touched place goes through.", "quantifier": "every lifetime, field, path list and usage mask", "why_tests_cant": "any number of regions, paths and levels, and multi-byte offsets", "anchors": ["src/lifetime.fu: Lifetime_op, Lifetime_op_field, Lifetime_op_mask, Lifetime_op_deref, Lifetime_op_join, Lifetime_makeShared, Lifetime_shiftUsage"]}
{"id": "C53", "title": "a lifetime answers which variables, arguments, temporaries and statics it names", "statement": "A lifetime made for a variable or an argument names exactly it, with the slots given; asking a lifetime for a variable, an argument or a temporary answers yes iff it is named; asking for statics answers yes whenever one is.", "quantifier": "every lifetime, locid below 2^30 in size and argument index below 2^30", "why_tests_cant": "the answers read the encoding's first or last bytes, which depend on every number's length", "anchors": ["src/lifetime.fu: Lifetime_from, Lifetime_AAR, Lifetime_has, hasTemporary, hasStatic"]}
{"id": "C54", "title": "canons, targets and addresses of functions are read back as they were written", "statement": "A packed target gives back the module, global and local numbers it was made of, and different ones are different as long as each is within 20 bits; a target appended to a string, a user type's canon, a serialized type's tags and canon, and the set of functions in an address-of-function canon are parsed back to what was written, wherever they stand in the string, so that different user types have different canons.", "quantifier": "every target, user type, base primitive, pattern suffix and list of functions", "why_tests_cant": "all numbers and all surrounding strings", "anchors": ["src/module.fu: Target, modid, globid, locid, parseLocalOrGlobal, appendLocalOrGlobal, parseGlobal, appendGlobal, sign_rotate", "src/usertypes.fu: createUserTypeCanon, parseUserTypeCanon", "src/context.fu: serializeType, parseType", "src/types.fu: packAddrOfFn, unpackAddrOfFn"]}
{"id": "C55", "title": "expressions are parsed by their precedence, unambiguously, and parsing ends", "statement": "Parsing an expression - literals, names, parentheses, prefix, postfix and infix operators, the conditional, type checks and casts, members, calls with positional, named, optional and automatically named arguments, indexing, slicing, array literals - gives the meaning of the one tree which the precedence and associativity of operators call for and which is as long as it can be, without skipping or inventing a token; every such tree is parsed to its meaning, or rejected if it has none, unless there is a warning; text on one line with even spacing and none of the warned-about forms has no warning; whatever the tokens are, parsing ends within a number of steps bounded by the tokens and the warnings allowed, and reads no token out of bounds.", "quantifier": "every list of tokens of the lexer, every position, precedence and number of warnings allowed, every tree", "why_tests_cant": "expressions are nested without limit; all combinations of operators", "anchors": ["src/parser.fu: parseExpression, parseExpressionHead, tryParseExpressionTail, tryParseBinary, createPrefix, createBinary, flattenIfSame, pipelineRight, pipelineLeft, letShorthand, parseCallArgs, createCallExpression, parseIndexExpression, parseArrayLiteral, parseAccessExpression, parseParens, parseTypeAnnot, getAutoName, softComma, PRECEDENCE, RIGHT_TO_LEFT"]}
{"id": "C56", "title": "builds load, order and solve modules rightly; incremental rebuilds leave nothing out of date", "statement": "Building a program ends and loads exactly the files which the main file imports, directly or not, each once; it loads if and only if all are there, can be parsed, and none imports itself over others, and an import circle, a missing or an unparsable file is reported only if there is one; each module is solved after everything it imports, given the outputs of exactly the modules it uses; solving modules of one depth in parallel gives the same outcome and the same modules as one by one. In watch mode, after any history of changed files and failed builds, pruning clears exactly the modules without an output and those that import them, and a rebuild which succeeds leaves every module made from the present text and the present outputs of what it uses - the outputs of a clean build - as long as the same import patterns mean the same files.", "quantifier": "every file system content and history of contents, every parser, import resolution and solver, any number of modules", "why_tests_cant": "import graphs are unbounded, and incremental states depend on the whole history of edits and failures", "anchors": ["src/compiler.fu: compile_lexParseDeps, compile, compile_solveCodegen, watch_pruneModules, watch_needsRebuild, clear, eachButPrelude", "src/context.fu: getModule, setModule, getFile, updateFile"]}
{"id": "C57", "title": "name lookup is lexical, whatever was looked up or called before", "statement": "In every history of declaring names, opening and closing blocks, declaring local functions (alone or in mutually visible groups), entering and leaving the bodies of functions that are still known - from anywhere, nested to any depth - and looking names up, possibly with further such events between two steps of one lookup, but without autocalls: each lookup yields exactly the meanings of the name in the environment its function was declared in extended by what its own body has declared, nearest first, then the given fields and extra targets, each with its shadows flag, and then ends; the caller's names are never seen, and no cached bit, position or skip makes a difference; nothing goes out of bounds, loops or trips a self test. In an autocall, where caller and callee scopes are united, the union hides nothing the caller sees and goes on hiding what neither sees.", "quantifier": "every history of scope events with targets of 62 bits and fewer than 2^28-1 names in force, fields and extra items", "why_tests_cant": "the lookup cache and the skip ranges depend on the whole history of declarations, calls and earlier lookups", "anchors": ["src/scope.fu: search, ScopeItem, canSkipRest, Scope_set", "src/solver.fu: ScopeSkip_push, Scope_snap, Scope_pop, doTrySpecialize (entering a body), unorderedPrep_B, LocalScope_union"]}
{"id": "C58", "title": "scope lists, exports and local numbering", "statement": "Hiding a range of a scope hides exactly that range besides what was hidden before; iterating over a scope, forwards from any start or backwards, visits every element that is not hidden exactly once, in order, and nothing else, and counting agrees; a scope item keeps its name, target and shadows flag whatever its cache bit is; a module exports exactly the items it declares itself, public ones first with their number, in order, with clean cache bits; looking up in another module yields the items of that name and then the fields, in order; the arguments of a function are numbered -1, -2, ... and its locals 1, 2, ..., each in order of declaration however they are mixed, and each is found by its number in the finished list.", "quantifier": "all lists, skips in order, names, targets of 62 bits, iterator positions, and sequences of up to 2^18 declarations", "why_tests_cant": "ranges over all skip lists and all interleavings of declarations", "anchors": ["src/scope.fu: each, count, reveach, Scope_exports.collect, search, Scope_create", "src/module.fu: indexOfLocal, nextIndexOfLocal, Target", "src/solver.fu: ScopeSkip_push"]}
{"id": "C59", "title": "threads sharing vec blocks see their own values", "statement": "Threads copy, move, drop, read and modify vecs, hand them to each other and lend them for reading, in any interleaving, with blocks shared between copies held by different threads. Reading a vec always gives what the operations on that vec account for; a modification through one copy is never seen through another. A block is freed at most once and never touched afterwards, is not freed while some vec refers to it, and is freed once every vec is gone. A thread in the middle of a copy or a release can always go on.", "quantifier": "all numbers of threads and vecs, all programs, all interleavings of their steps, and every value the memory model lets a relaxed load return", "why_tests_cant": "the interleavings of several threads, and the stale values a relaxed load may return on weakly ordered hardware, cannot be enumerated by running", "anchors": ["include/fu/mem/arc.h: incr, decr, unique", "include/fu/vec.h: fu_VEC(const fu_VEC&), fu_VEC(fu_VEC&&), ~fu_VEC, SHARED__Dealloc, UNIQ__Dealloc_DontRunDtors, slow_check_unique, _Splice"]}
{"id": "C60", "title": "accesses to shared vec memory are ordered", "statement": "Whatever threads do with their own vecs and with vecs lent to them for reading, no two of them touch the same memory in a conflicting way without one happening before the other (no data race in the sense of the C++ memory model).", "quantifier": "all numbers of threads and vecs, all programs, all interleavings, every value a relaxed load may return", "why_tests_cant": "a race is the absence of an ordering; on strongly ordered hardware a test passes although the program has one", "anchors": ["include/fu/mem/arc.h: incr, decr, unique", "include/fu/vec.h: fu_VEC(const fu_VEC&), UNSAFE__MarkShared, slow_check_unique, _Splice"]}
{"id": "C61", "title": "file::write writes all or says so", "statement": "On a system where a write of something writes something or fails, file::write reports success only if the file afterwards holds exactly the data. Whatever call fails, and wherever the process is stopped, the file is as it was or holds a beginning of the data, and no other file has changed. No descriptor stays open.", "quantifier": "all data, all file systems without hard links, all sequences of partial writes, failures and crash points", "why_tests_cant": "how much a write transfers, which call fails and where the process dies are chosen by the system", "anchors": ["lib/file.fu: write"]}
{"id": "C62", "title": "file::read gives the contents or says so", "statement": "file::read reports success only if exactly the contents of the file (or, with a size given, exactly that many bytes of a file that long) were appended to the output. It never changes a file, keeps what the output held, and leaves no descriptor open.", "quantifier": "all contents, outputs, sizes, spare capacities, all sequences of short reads and failures", "why_tests_cant": "how much a read transfers and which call fails are chosen by the system", "anchors": ["lib/file.fu: read"]}
{"id": "C63", "title": "fs::mkdir_p makes the missing directories", "statement": "fs::mkdir_p makes every missing directory on the way to the one asked for and nothing else, and reports success if and only if the directory is there afterwards.", "quantifier": "all paths, all sets of existing directories, all failures and crash points", "why_tests_cant": "the depth of the missing part and the failures are unbounded", "anchors": ["lib/fs.fu: mkdir_p", "src/build.fu: DirWrk, ensure_local_fname, update_file"]}
{"id": "C64", "title": "atomic_write is all or nothing", "statement": "Any number of processes or threads write files by atomic_write at the same time, each with a temporary name of its own. Whatever call of any of them fails and wherever everything is stopped, every file that is not one of the temporary ones holds what it held before or all of the data of one of the writers for it, never a part or a mixture. A writer that reported success has its destination filled with all of the data of a writer for it, and its temporary file is gone; when all are done no descriptor is left open. Temporary names differ whenever the lower forty random bits do.", "quantifier": "all numbers of writers, data, destinations, interleavings of their system calls, partial writes, failures and crash points", "why_tests_cant": "interleavings and crash points cannot be enumerated", "anchors": ["src/build.fu: atomic_write, tmpfile", "lib/file.fu: write, rename, unlink"]}
{"id": "C65", "title": "An import means the nearest file", "statement": "An import of a name (or a qualified mention name::id) from a file in some directory finds, for the first of the naming conventions name.fu, name/name.fu, name/id.fu that exists at all, the nearest such file: in the directory itself, in those above it, then in the compiler's library; what it finds does not depend on what was imported before. In any case it gives a file that is there and has one of the names asked for, a file of that name in the importing directory is always preferred, the same import gives the same file every time, and what is not an import is given back as it is.", "quantifier": "all file systems, library locations, directories, names, and histories of imports", "why_tests_cant": "the cache makes every answer depend on all imports before it", "anchors": ["src/context.fu: resolveFile", "src/context.fu: Context.fuzzy", "lib/path.fu: dirname"]}
{"id": "C66", "title": "spawn plumbs the child's streams and leaks no descriptor", "statement": "spawn(child) with each stream ignored, the parent's or a pipe: if any step fails the parent's descriptors are as before; if it succeeds the parent has what it had and its own end of each pipe asked for, not inheritable, and nothing else. The child has the pipe ends, the parent's streams or /dev/null as its standard streams, as asked, and besides them only what the parent lets its children inherit: no end of its own pipes or another child's.", "quantifier": "all combinations of modes, all descriptor tables with the three standard streams open, all descriptor numbers the system may give, all failures", "why_tests_cant": "descriptor numbers, failure points and inherited tables are not enumerable", "anchors": ["lib/spawn.fu: pipe", "lib/spawn.fu: spawn", "lib/spawn.fu: close_both"]}
{"id": "C67", "title": "spawn collects all of the child's output", "statement": "spawn(argv, stdout, stderr, status) that reports success has collected all the child wrote to each stream, in order, and the child's status; what is collected is always the beginning of what was written; the two never wait for each other for ever, and the whole ends.", "quantifier": "all children (any sequence of writes of any size and closes, then exit), pipe capacities, partial reads and writes, interleavings, and failures of calls", "why_tests_cant": "interleavings and partial reads and writes are unbounded", "anchors": ["lib/spawn.fu: spawn (collecting)", "lib/spawn.fu: close", "lib/spawn.fu: fu_waitpid"]}
{"id": "C68", "title": "Event loop: a connection's bytes are delivered and its wake-ups are not lost", "statement": "What a program behind lib/ev/Loop reads from a connection is what the peer sent, in order, nothing twice and nothing left out. No wake-up is lost: a program that reads whenever it is told to is called, and told that there is something to read, as long as the peer has sent anything it has not read, and after that call it has all of it; data it was told of and did not read is announced again at the next event; output that could not be written at once is followed by a call as soon as the socket can be written to. The loop closes a connection only when the peer has finished and the program has read everything the peer sent and written everything it has to say.", "quantifier": "every history of events, every peer (sending, finishing or resetting at any moment, also while the program runs), every program (any calls in any order in each event), every choice the system makes (writability, how much a write takes, errors)", "why_tests_cant": "The interleavings of the peer's acts with the handler's and of readable, writable and hang-up reports across events are unbounded; a lost wake-up shows only as a hang.", "anchors": ["lib/ev/Loop.fu: Loop (Kind.ipv4_server_socket), wakeUp_forRecvOrWrite, SocketState", "lib/ev/HTTP.fu: socket_event", "lib/FD.fu: read_exhaustive"]}
{"id": "C69", "title": "Literals mean in the generated C++ what they mean in the program", "statement": "For every string and character literal of a fu program, the literal written into the generated C++ source denotes, read by the C++ rules, exactly the bytes the program's literal denotes (quotes, backslashes, control bytes, NUL before a digit and bytes above 127 included), whatever follows it. An integer literal is given a type that holds its value, the hinted type when there is one and it fits, and its generated text is well-formed C++ with the same value and type; a + or - before a literal has its usual meaning. Refuted for: decimal literals beginning 0_ (octal in C++), radix literals typed as floats, signed octal literals, the least i32 written in hex or binary, and f64 exactness above 2^53.", "quantifier": "every byte string, every byte, every sign, radix and digit text (with underscores) that the lexer can produce, every type hint", "why_tests_cant": "the escaping and the radix rewriting interact with what follows each byte or digit; there are infinitely many literals and the golden tests pin only a few", "anchors": ["src/codegen.fu: escapeStringLiteral, escapeStringChar, cgLiteral, cgStringLiteral, cgIntLiteral", "src/solver.fu: solveInt / literal typing", "src/parser.fu: unary sign folding"]}
{"id": "C70", "title": "Names in the generated C++ mean what the program means by them", "statement": "In the C++ generated for a function, every mention of a local or argument is resolved by the C++ lookup rules to the one variable declared for it, every mention of a global to that global, and no block declares a name twice, whatever names the program uses, however blocks, loops, handlers and lets in expressions are nested, and wherever declarations are hoisted; every generated name is a valid C++ identifier and no keyword. Refuted where a global is used earlier in a statement than a let of its name, where a block in a handler yields a reference to the handler's variable, where a local has the name of a generated helper variable (_0, BL_0_v, o_0); different names can also become the same (do and dO).", "quantifier": "every function body tree (nesting, hoisting, loops, handlers, temporaries), every naming of its locals and globals", "why_tests_cant": "capture needs a particular combination of equal names, scopes and hoisting; the golden tests fix a few programs", "anchors": ["src/codegen.fu: localID, binding, cgBlock, cgLet, cgLoop, cgTryCatch, TEMPVAR_declare, cgNodes, rootNS, valid_identifier", "src/cpp.fu: ID, KEYWORDS"]}
{"id": "C71", "title": "The C++ emitted for an expression computes what the expression means", "statement": "For every expression built from literals, variables, fields, elements, calls, conversions, unary, binary, increment and assignment operators, !, && and || (of type bool or of any other type), and ?:, the text the compiler emits is a C++ expression whose evaluation gives the fu expression's value and has exactly its effects on variables and calls, in the same order: no missing parenthesis changes how operators group, a && b and a || b evaluate later operands only when the earlier ones do not decide, and where a value is wanted they give the deciding operand's, evaluated once. The same holds of the text between the parentheses of if and while.", "quantifier": "every expression tree of these forms, of any depth and number of operands, every meaning of operators, literals and called functions, every program state", "why_tests_cant": "tests compile a few expressions; the claim is about every nesting of operators with every other, in every position", "anchors": ["src/codegen.fu: cgNode, cgNot, cgCall, cgIf, cgAnd, cgOr, via, cgAndOr_concat, isFieldChain, binSkipParens", "src/codegen.fu: emitPrefixOp, emitPostfixOp, emitBinaryOp, unpromote, TEMPVAR_declare, TEMPVAR_init, TEMPVAR_consume"]}
{"id": "C72", "title": "Arguments are evaluated in fu's order", "statement": "The arguments of a call are evaluated once each, from left to right, those passed as mutable references or implicitly after the others (for assignments and the like the first argument last). C++ leaves the order of a call's arguments open: whichever order it picks in the generated call, argument values and the state left behind are the ones of fu's order.", "quantifier": "every number and kind of arguments, every set of variables each argument reads, writes or moves, every order C++ may choose", "why_tests_cant": "the C++ compiler used for tests picks one order; the property is about every order it might pick, and about any number of arguments although the mask has 32 bits", "anchors": ["src/module.fu: argsForward, argsReverse", "src/solver.fu: ensureArgSequencing", "src/codegen.fu: cgCall, isPointlessMustSeq, isFieldChain"]}
{"id": "C73", "title": "Generated statements keep their nesting", "statement": "The C++ statements written for conditionals, loops, blocks, jumps and try/catch are read by a C++ compiler with the nesting they had in the program: each statement under its condition and in its loop, each else with its if, each label at the end of the block or loop it names, although braces are left out where they look unnecessary.", "quantifier": "every nesting of statements, every expression text in them (with or without braces or the letters if, with or without temporaries)", "why_tests_cant": "whether braces may be dropped depends on the whole shape and text of the substatement; nestings are unbounded", "anchors": ["src/codegen.fu: cgStatements, cgBlock, blockWrapSubstatement, cgIf, cgAnd, cgOr, cgLoop, cgTryCatch, cgJump, cgNodes"]}
{"id": "C74", "title": "Deferred statements run when their block is left", "statement": "When a block is left - by reaching its end, by break or return, or by an error - the statements deferred in it so far run, the latest first, each exactly once: `defer` always, `defer:err` only if the block is left by an error, `defer:ok` only if it is not. This holds also for blocks inside deferred statements that run because of an error elsewhere: they go by how they themselves are left. Statements deferred after the point where the block was left do not run. An error out of a deferred statement ends the program; that the compiler turns a deferred statement at the end of a block into an ordinary one makes no difference to this.", "quantifier": "every program of actions that may throw, conditionals, blocks, loops, exits from loops, try/catch and deferred statements of the three kinds nested in any way; every state; every number of exceptions in flight when the block is entered", "why_tests_cant": "which deferred statements run depends on a count of exceptions taken when the block was entered compared with the count when it is left, under arbitrary nesting of errors, handlers and deferred statements; tests have a few nestings", "anchors": ["include/fu/defer.h: defer, defer_if_err, defer_if_ok", "src/codegen.fu: cgDefer", "src/solver.fu: trailing defer in solveBlock", "src/parser.fu: parseDefer"]}
{"id": "C75", "title": "Loops run as written, and jumps reach what they name", "statement": "A function body made of actions, conditionals, blocks and loops with break, continue and jumps to labels in any nesting runs, as generated C++, exactly as written: a `for` loop does its initial statement, then test, body, what comes after the body, test and so on; a `do` loop tests after each round; `continue` goes on with what comes after the body of the loop it names (also from inside loops in that body), `break` leaves the loop or block it names, and nothing else is left or skipped. The C++ ends exactly if the body does, in the same state, by reaching the end or by return.", "quantifier": "every function body of actions, conditionals, blocks, for/while/do loops, jumps and returns, nested in any way, whose names are distinct where they are nested; every state; any number of steps", "why_tests_cant": "which of break, continue and goto is generated, and whether a label is generated, depends on the nesting of loops and blocks around the jump; there are unboundedly many nestings and a wrong choice shows only when that jump is taken", "anchors": ["src/codegen.fu: cgJump, cgBlock, cgLoop, cgIf"]}
{"id": "C76", "title": "What is to be done on entry to a loop is done once", "statement": "In `for (init; cond; post) on enter pre then body`, pre is done exactly once, after the first test has succeeded and before the first round, and not at all if the first test fails; apart from that the loop runs as without it, including break and continue in the body, jumps and returns out of pre to anything around the loop, and loops of this kind inside one another. The C++ ends exactly if the source does, in the same state, by reaching the end or by return.", "quantifier": "every function body of actions, conditionals, blocks, loops with or without something to be done on entry, jumps and returns, nested in any way, with names distinct where they are nested; every state; any number of steps", "why_tests_cant": "the loop is rewritten into a block with a guard and a loop that tests at its end, and jumps are generated for the rewritten tree; whether they still reach what they name depends on arbitrary nesting, and the repository has one test of the construct", "anchors": ["src/codegen.fu: cgLoop (preheaders), cgJump, cgBlock", "src/solver.fu: solveLoop, solveBlock", "src/parser.fu: tryParseLoopPreheader"]}
{"id": "C77", "title": "Jumps that the compiler removes are redundant", "statement": "The compiler may drop a return, break or continue that leads where control goes anyway, redirect one to the outermost block with the same end, and move a jump into the branches of the expression it carries; the function still does the same and returns the same value. No block, other than the body of a function that returns a value, is left ending in a jump to its own end.", "quantifier": "every function body of calls, conditionals, ||, repeated parts, labelled blocks and jumps with values, nested in any way, blocks numbered inwards; every meaning of the calls, every state", "why_tests_cant": "whether a jump is redundant is decided by comparing two block numbers handed down through conditionals, blocks and the expressions of other jumps; a wrong decision shows only for particular nestings, of which there are unboundedly many", "anchors": ["src/solver.fu: propagateType (jump, block, if), tryInjectJumps, push", "src/parser.fu: parseJump"]}
{"id": "C78", "title": "Reading loses nothing and leaves nothing", "statement": "FD.read and read_exhaustive append to the buffer exactly the bytes they take from the descriptor, in order and without ever writing outside the buffer's memory, whether into its spare room or through a temporary; the total is their number, interruptions are retried, any other error is returned with what was read before it. On success all that had arrived by the last call has been read. read_discard counts likewise. exec returns the whole output of the command after what was in stdout, with its exit status.", "quantifier": "every behaviour of the source (bytes, arrivals between calls, short reads, failures, interruptions), every buffer including shared ones, every capacity that appending results in, any number of calls", "why_tests_cant": "which path is taken, and whether another call is made, depends on how many bytes happen to be there at each call relative to the buffer's spare capacity at that moment; edge triggered events make a byte left behind a hang", "anchors": ["lib/FD.fu: read, read_exhaustive, read_discard", "lib/exec.fu: exec", "lib/Errno.fu: should_retry_immediately", "include/fu/vec.h: capa, data_mut, UNSAFE__WriteSize, append_copy"]}
{"id": "C79", "title": "An embedded bitmap font is unpacked as it was packed", "statement": "Packing the texels of a font into 64-bit words and unpacking them gives back which texels are set (as 255) and which are not (as 0), with at most 63 further zero texels at the end. The hexadecimal literal emitted for a word or codepoint has its value. The codepoints emitted for a font are, for a font unpacked from an increasing list starting with 0, that list; and unpacking assigns each codepoint its position and 0 to all others.", "quantifier": "every array of texels of any length, every 64-bit word, every increasing list of 16-bit codepoints", "why_tests_cant": "word boundaries, trailing partial words and the widths of literals depend on lengths and values; the tests in the repository are those of a few fonts that were generated with the same code", "anchors": ["lib/ui/EmbeddedBitmapFont.fu: bytes_to_bits, bits_to_bytes, EmbeddedBitmapFont, EmbeddedBitmapFont_emit"]}
{"id": "C80", "title": "Giving every glyph of a bitmap font the same box changes no glyph's looks", "statement": "make_mono_bounds on a font without a common box fails no assertion and indexes no texel out of bounds; the new box is the least that contains every glyph's box; every glyph gets that box and texels of its own, and shows at every point what it showed before (0 outside its old box). Called again it changes nothing unless the box is all zero. each visits the same number of glyphs before and after, with all their texels, and afterwards needs the glyph array no more unless the common box is empty; count agrees.", "quantifier": "all non-empty lists of glyphs with arbitrary (proper) boxes whose texels are stored, overlapping or not, and every point", "why_tests_cant": "the offsets depend on the boxes of all glyphs together; a test draws a few fonts", "anchors": ["lib/ui/BitmapFont.fu: make_mono_bounds, each, count", "lib/ui/Font.fu: aabb16, width, height, stride"]}
