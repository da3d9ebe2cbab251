{"id": "C01", "title": "Infix expressions resolve by precedence and associativity", "statement": "An expression written as operands separated by infix operators is resolved to exactly one tree: the tree whose left-to-right reading is the written expression and in which every operator binds its operands according to the declared precedences, with equal-precedence runs grouped to the left after a left-associative operator and to the right after a right-associative one.", "quantifier": "every non-empty alternating sequence of operands and infix operators, every assignment of precedences and associativities", "why_tests_cant": "Precedence is user-declared, so the space of operator tables and expression lengths is infinite; a test fixes both.", "anchors": ["src/core/cook/shunt.rs: Shunter::shunt, seat_op, apply_top, clear_ops", "src/core/cook/fill.rs: fill_gaps"]}
{"id": "C02", "title": "Operator resolution loses, duplicates and reorders nothing", "statement": "Whatever mixture of prefix, postfix, infix and nullary operators a soup contains, a successful resolution yields one tree whose in-order reading is the original token sequence, each operator having exactly as many operands as its fixity demands.", "quantifier": "every token sequence over every operator fixity and precedence", "why_tests_cant": "Requires all interleavings of five fixities and arbitrary precedences.", "anchors": ["src/core/cook/shunt.rs: seat_op, apply_one, apply_two, clear_ops"]}
{"id": "C03", "title": "Operator resolution always terminates without a panic", "statement": "Resolving any non-empty soup either returns an expression or a 'too few operands' / missing-operand error; it never loops and never panics on an empty output stack.", "quantifier": "every non-empty token sequence", "why_tests_cant": "Non-termination and panics live in unusual operator mixtures that no finite suite enumerates.", "anchors": ["src/core/cook/shunt.rs: shunt, shunt1, seat_op"]}
{"id": "C04", "title": "Gap filling makes every soup well-formed", "statement": "Between any two adjacent elements, juxtaposition (catenation) is inserted exactly when both facing sides are values, an implicit parameter is inserted exactly when both facing sides expect an operand, and nothing otherwise; afterwards no two adjacent facing sides clash, so operator resolution cannot run out of operands, and the original elements survive in order.", "quantifier": "every soup of operands and operators", "why_tests_cant": "Ranges over all adjacency patterns in sequences of any length.", "anchors": ["src/core/cook/fill.rs: bind_sides, filler, fill_gaps, init_filler"]}
{"id": "C05", "title": "Closing and opening a scope are inverse and capture nothing else", "statement": "Binding a set of names over an expression and then opening that scope again gives back the expression; after binding, exactly the free occurrences of those names become references to the new scope, and every other reference (free or to an outer scope) still denotes what it did.", "quantifier": "every expression, every list of names, every nesting depth", "why_tests_cant": "Index arithmetic under binders is only wrong at some depth/shadowing combinations.", "anchors": ["src/core/expr.rs: close_expr_vars, open_expr_vars, close_let_scope, open_let_scope_full, close_lam_scope, bind_free_vars"]}
{"id": "C06", "title": "References keep pointing at the same binding when scopes are added or removed", "statement": "Inserting an empty scope around an expression (shifting references up) and removing it again (shifting down) is the identity, changes no binder index, and an expression that is closed at a depth stays closed at the shifted depth.", "quantifier": "every expression and depth", "why_tests_cant": "Unbounded nesting.", "anchors": ["src/core/transform/succ.rs: succ, pred"]}
{"id": "C07", "title": "Dead-code elimination never removes anything reachable", "statement": "Pruning keeps every binding that the program body can reach through any chain of references, and never leaves a live reference to an eliminated binding.", "quantifier": "every closed core expression with nested recursive lets", "why_tests_cant": "Reachability chains and nesting are unbounded; marking is an iterated fixpoint.", "anchors": ["src/core/simplify/prune.rs: prune, ScopeTracker, mark_body"]}
{"id": "C08", "title": "Compression after pruning preserves every reference", "statement": "Removing eliminated bindings and renumbering the survivors makes every remaining reference denote the same definition as before, collapses scopes emptied entirely, and fails with an error rather than producing a dangling reference if an eliminated binding is still used.", "quantifier": "every expression and every set of eliminated bindings", "why_tests_cant": "The renumbering depends on all combinations of eliminated positions and depths.", "anchors": ["src/core/simplify/compress.rs: compress"]}
{"id": "C09", "title": "Recursive binding groups are split in dependency order", "statement": "Splitting a recursive let groups two bindings together exactly when each reaches the other, keeps every binding exactly once, and nests the groups so that a group only refers to itself and to groups bound outside it.", "quantifier": "every finite dependency graph", "why_tests_cant": "Tarjan's algorithm has history-dependent state (indices, lowlinks, stack); graphs are unbounded.", "anchors": ["src/core/dependency.rs: tarjan, split_letrecs"]}
{"id": "C10", "title": "Flattening nested lets does not change what a name refers to", "statement": "Merging a chain of nested lets into one scope leaves every reference denoting the same binding.", "quantifier": "every chain of nested lets, including ones that re-use a name in an inner scope", "why_tests_cant": "Needs all shadowing patterns.", "anchors": ["src/core/reflatten.rs"]}
{"id": "C11", "title": "Static fusion preserves meaning and needs one pass", "statement": "Folding lookups into literal blocks and head/tail of literal lists replaces an expression by one with the same value, and fusing an already fused expression changes nothing.", "quantifier": "every core expression", "why_tests_cant": "Idempotence and meaning preservation quantify over all nestings of redexes.", "anchors": ["src/core/transform/fuse.rs"]}
{"id": "C12", "title": "A hole offered to the allocator contains no marked line", "statement": "Every hole the line map reports lies below the requested limit, inside the block, is at least one line long, consists only of unmarked lines, and leaves one unmarked guard line below the marked line above it; a hole is reported whenever two adjacent unmarked lines exist below the limit.", "quantifier": "every line map and every limit", "why_tests_cant": "2^256 line maps.", "anchors": ["src/eval/memory/bump.rs: LineMap::find_hole"]}
{"id": "C13", "title": "Bump allocations never overlap live data or each other", "statement": "In any sequence of allocations into a block since it was last recycled, each returned region lies inside the block, avoids every marked line and is disjoint from every region returned before.", "quantifier": "every line map and every finite sequence of request sizes", "why_tests_cant": "Sequence of arbitrary sizes over arbitrary mark maps.", "anchors": ["src/eval/memory/bump.rs: BumpBlock::bump, recycle, mark_region"]}
{"id": "C14", "title": "Collection preserves every reachable object", "statement": "Across any history of allocations, root updates, pointer updates, collections and lazy sweeps, an object reachable from the roots is never handed out again as free space: its bytes are disjoint from every region allocated after it while it stays reachable.", "quantifier": "every finite history of mutator and collector steps", "why_tests_cant": "Memory corruption depends on interleavings of marking, lazy sweep and allocation across collections.", "anchors": ["src/eval/memory/heap.rs: try_allocate, replace_head_targeted, lazy_sweep_next, defer_sweep, reset_region_marks, mark_line", "src/eval/memory/collect.rs: collect_mark_in_place"]}
{"id": "C15", "title": "Allocation below block size always succeeds", "statement": "From any reachable heap state an allocation request of any size succeeds without resorting to the emergency sweep (block supply permitting).", "quantifier": "every reachable heap state and every size", "why_tests_cant": "Failure would need a rare arrangement of recycled blocks and holes.", "anchors": ["src/eval/memory/heap.rs: try_allocate, find_space, find_best_recycled_block"]}
{"id": "C16", "title": "The mark phase visits exactly the reachable objects", "statement": "After tracing, an object is marked if and only if it is reachable from the roots, whatever the shape of the heap graph (sharing, cycles); each is scanned at most once.", "quantifier": "every finite object graph and root set", "why_tests_cant": "All graphs, including cyclic ones.", "anchors": ["src/eval/memory/collect.rs: collect_mark_in_place, CollectorHeapView::mark", "src/eval/memory/header.rs"]}
{"id": "C17", "title": "Evacuation preserves the object graph", "statement": "After an evacuating collection the graph reachable from the roots is isomorphic to the one before: every live pointer to a moved object has been redirected to its unique copy, and contents are otherwise unchanged.", "quantifier": "every finite object graph, root set and choice of candidate blocks", "why_tests_cant": "All graphs and all candidate sets.", "anchors": ["src/eval/memory/collect.rs: collect_with_evacuation, evacuate, forwarded_to"]}
{"id": "C18", "title": "Union-find labels connected components", "statement": "graph union-find gives two nodes the same label exactly when the edges connect them, for every edge list, ignoring out-of-range edges.", "quantifier": "every node count and every edge list", "why_tests_cant": "Path halving and union by rank mutate shared state; correctness is over all merge histories.", "anchors": ["src/eval/stg/graph.rs: UnionFind, GRAPH_UNION_FIND"]}
{"id": "C19", "title": "Topological sort is sound and complete", "statement": "The returned list has no duplicates and places every edge's source before its target among listed nodes; it lists all nodes exactly when the graph has no cycle.", "quantifier": "every node count and edge list, including self loops and duplicate edges", "why_tests_cant": "All graphs.", "anchors": ["src/eval/stg/graph.rs: GRAPH_TOPO_SORT"]}
{"id": "C20", "title": "Kruskal selection is a spanning forest", "statement": "The edges selected from a weight-ordered list form a forest connecting exactly what the full list connects, each selected edge joining two previously separate components, and the reported component counts are exact; with edges in weight order the forest has minimum total weight.", "quantifier": "every node count and edge list", "why_tests_cant": "All graphs.", "anchors": ["src/eval/stg/graph.rs: GRAPH_KRUSKAL_EDGES"]}
{"id": "C21", "title": "The PRNG step is a bijection on 64-bit states", "statement": "The state-to-output mixing function is injective on 64-bit words and the state walk has full period, so distinct states yield distinct outputs and no seed falls into a short cycle.", "quantifier": "every 64-bit state", "why_tests_cant": "2^64 states.", "anchors": ["src/eval/stg/prng.rs: splitmix64"]}
{"id": "C22", "title": "Symbol interning is a bijection that never moves", "statement": "Interning returns equal ids exactly for equal strings, resolving an id gives back the string, and later interning never changes an earlier id.", "quantifier": "every sequence of intern operations", "why_tests_cant": "Histories of any length.", "anchors": ["src/eval/memory/symbol.rs: SymbolPool"]}
{"id": "C23", "title": "Sets are canonical", "statement": "Two sets built by any sequences of insertions, removals, unions, intersections and differences with the same membership list their elements in the same, strictly increasing order, and the operations obey set algebra.", "quantifier": "all operation sequences over all primitive values", "why_tests_cant": "All histories.", "anchors": ["src/eval/memory/set.rs: HeapSet, Primitive"]}
{"id": "C24", "title": "Growable arrays behave as lists", "statement": "Any sequence of push, pop, set, get and slice operations on a heap array gives the results the same operations give on a list, with capacity growth invisible and length never exceeding capacity.", "quantifier": "every operation sequence", "why_tests_cant": "Histories crossing every growth boundary.", "anchors": ["src/eval/memory/array.rs: Array"]}
{"id": "C25", "title": "N-dimensional indexing enumerates each cell once", "statement": "The index enumeration of an n-dimensional array lists each in-range coordinate exactly once in row-major order and agrees with coordinate-to-offset lookup; reshape preserves the flat data and transposition is undone by its inverse.", "quantifier": "every shape of every rank", "why_tests_cant": "Unbounded ranks and dimensions.", "anchors": ["src/eval/memory/ndarray.rs: HeapNdArray"]}
{"id": "C26", "title": "Bytecode encoding is lossless", "statement": "Encoding any compiled program and decoding from the returned entry offset gives back the program, provided counts and indices fit the wire widths; no program within those widths is ever corrupted.", "quantifier": "every STG syntax tree", "why_tests_cant": "All trees; truncation bugs appear only beyond particular sizes.", "anchors": ["src/eval/bytecode/encode.rs: Encoder::encode_node", "src/eval/bytecode/program.rs: read_ref, read_arg_offsets, read_form_header", "src/eval/bytecode/opcode.rs"]}
{"id": "C27", "title": "Pre-decoding agrees with the byte stream", "statement": "The pre-decoded instruction array denotes the same program as the byte stream: each reachable node gets one instruction whose fields are the node's operands with offsets replaced by ordinals, and annotations are folded onto the node they wrap.", "quantifier": "every well-formed bytecode program, including shared and cyclic offsets", "why_tests_cant": "All programs.", "anchors": ["src/eval/bytecode/predecode.rs: Decoder"]}
{"id": "C28", "title": "Info-word packing is lossless", "statement": "Packing arity, update flag and source id into the closure info word and unpacking returns the same three values for every value in range, and distinct triples give distinct words.", "quantifier": "every 8-bit arity, flag and 32-bit source id", "why_tests_cant": "2^41 triples.", "anchors": ["src/eval/memory/infotable.rs: InfoFlags"]}
{"id": "C29", "title": "Subtyping is sound for values", "statement": "If the checker accepts S as a subtype of T, every value inhabiting S inhabits T (for types without gradual components); subtyping is reflexive and, as documented, transitive.", "quantifier": "all pairs (triples) of types", "why_tests_cant": "Types nest without bound; transitivity ranges over triples.", "anchors": ["src/core/typecheck/subtype.rs: is_subtype"]}
{"id": "C30", "title": "Unification returns a unifier", "statement": "When unification succeeds, applying the resulting substitution to both types makes them equal (modulo the documented gradual and literal widenings), the substitution is acyclic so applying it terminates, and unification itself terminates.", "quantifier": "all pairs of types and all prior acyclic substitutions", "why_tests_cant": "Infinite set of types; occurs-check and triangular substitution subtleties.", "anchors": ["src/core/typecheck/unify.rs: unify, bind_var, apply_subst, occurs"]}
{"id": "C31", "title": "Demand annotations form a lattice", "statement": "Combining demands of alternative branches is commutative, associative and idempotent with 'absent' as identity, and never claims 'at most once' or 'strict' unless every alternative does.", "quantifier": "all pairs and triples of demands, all finite folds", "why_tests_cant": "Order-independence over arbitrary folds.", "anchors": ["src/core/demand.rs: Cardinality::join, Strictness::join, Demand::lub, scale"]}
{"id": "C32", "title": "Serialised maps do not depend on hash order", "statement": "Serialising a hash map yields the same bytes for every iteration order and inserting order with the same contents.", "quantifier": "all maps and iteration orders", "why_tests_cant": "Hash iteration order is a schedule.", "anchors": ["src/common/serde_sorted.rs"]}
{"id": "C33", "title": "Lexical lookup finds the innermost binding", "statement": "Looking a name up in the environment stack returns the value bound in the innermost frame that binds it; pushing and popping frames restores earlier answers.", "quantifier": "all stacks and names", "why_tests_cant": "All nesting patterns.", "anchors": ["src/common/environment.rs: SimpleEnvironment"]}
{"id": "C34", "title": "Anaphora become parameters in the documented order", "statement": "Numbered anaphora _0.._n become parameter positions 0..n (unused positions filled), unnumbered ones are parameters in left-to-right order, and mixing kinds is rejected.", "quantifier": "all sets of anaphora in an expression", "why_tests_cant": "All mixtures and counts; ordering bugs appear only past ten parameters.", "anchors": ["src/core/anaphora.rs: to_binding_pattern", "src/core/expr.rs: Anaphor ordering"]}
{"id": "C35", "title": "The blob freshness key is collision-free before hashing", "statement": "Distinct (version, prelude source, intrinsic table) inputs produce distinct byte streams into the hash, so staleness can only be missed through a hash collision.", "quantifier": "all triples of byte strings", "why_tests_cant": "Infinitely many inputs; concatenation ambiguities are adversarial.", "anchors": ["src/eval/stg/wire_format.rs: absorb, blob_source_hash"]}
{"id": "C36", "title": "Large-object sizing covers the request within bounded waste", "statement": "The size chosen for a large object is at least the request, a multiple of its granule, monotone in the request, and wastes less than one granule.", "quantifier": "all request sizes", "why_tests_cant": "2^64 sizes.", "anchors": ["src/eval/memory/lob.rs: efficient_size_for"]}
{"id": "C37", "title": "Random draws stay in their documented range and splitting separates streams", "statement": "random.int(n) yields an integer in [0, n); a random float lies in [0, 1); splitting a stream yields two different streams, and different streams split into different streams.", "quantifier": "every 64-bit stream state and every positive integer bound", "why_tests_cant": "2^64 states times 2^64 bounds.", "anchors": ["src/eval/stg/stream_prng.rs: StreamInt, StreamFloat, StreamSplit", "src/eval/stg/prng.rs: splitmix64"]}
{"id": "C38", "title": "Vector indexing and slicing agree with the list of elements", "statement": "vec.nth(n, v) returns the n-th element when 0 <= n < length and an error otherwise; vec.slice(from, to, v) returns exactly the elements at positions from..to clipped to the vector.", "quantifier": "every vector and every integer index or pair of bounds", "why_tests_cant": "Unbounded vector lengths and all signed index combinations, including negative and past-the-end.", "anchors": ["src/eval/stg/vec.rs: VecNth, VecSlice", "src/eval/memory/vec.rs: HeapVec"]}
{"id": "C39", "title": "Sampling and shuffling only rearrange what they are given", "statement": "A sample of k from a vector or set is k elements taken from distinct positions (all of them if k exceeds the size); a shuffle is a permutation of the vector, and every permutation is produced by some stream of random draws.", "quantifier": "every vector, every count k and every stream of random floats", "why_tests_cant": "Tests see a few seeds; the claim ranges over all random streams and all lengths.", "anchors": ["src/eval/stg/vec.rs: VecSample, VecShuffle", "src/eval/stg/set.rs: SetSample", "lib/prelude.eu: vec.shuffle, vec.sample"]}
{"id": "C40", "title": "Inlining small functions does not change results or repeat work", "statement": "Replacing calls of inlinable functions by their bodies, and passing such functions to their call sites, gives an expression that means the same, in which every reference still points at the same definition, and in which no argument that involves a call is evaluated more often than before.", "quantifier": "all core expressions, nesting depths, parameter and argument names and numbers of uses of a parameter", "why_tests_cant": "Capture and misdirected references depend on the names and nesting at each call site, and sharing on how often each parameter is used; only a proof covers all combinations.", "anchors": ["src/core/inline/reduce.rs: inline_pass, distribute, beta_reduce, substs_depth, fresh_name", "src/core/inline/tag.rs: tag_combinators"]}
{"id": "C41", "title": "The evaluator gives the answers of call-by-name evaluation", "statement": "Whatever part of the output a run of the virtual machine produces (constructor tags, natives, functions, lazily visited fields), evaluating the same program by plain substitution of unevaluated arguments gives exactly that output; and whatever call-by-name evaluation gives, the machine produces. Sharing, in-place update, black-holing, pre-decoded fast paths and partial-application frames are not observable.", "quantifier": "every well-formed program (compiled instructions with globals), every set of primitive operations, every finite part of a possibly infinite output, every order and depth of visiting fields", "why_tests_cant": "Update frames, aliasing of environment slots and fast paths interact over unbounded runs and cyclic heaps; a test fixes one program, one heap shape and one visiting order.", "anchors": ["src/eval/bytecode/machine.rs: step, handle_instruction, return_native, return_data, return_fun, env_from_data_args, native_from_value", "src/eval/machine/vm.rs", "src/eval/stg/syntax.rs"]}
{"id": "C42", "title": "Applying a function in stages is applying it at once", "statement": "Giving a function its arguments in one call, or some first and the rest later in any number of stages, or more arguments than it takes, has the same outcome; an under-applied call is a function of exactly the missing number of arguments.", "quantifier": "every function value (compiled lambda, partial application or expression evaluating to one), every list of arguments and every division of it", "why_tests_cant": "The split point, arity and number of stages are unbounded and each combination takes a different path (saturated, partial, over-saturated).", "anchors": ["src/eval/bytecode/machine.rs: return_fun, apply, pap templates", "src/eval/machine/vm.rs: return_fun"]}
{"id": "C43", "title": "An infinite-loop error is reported only for programs that have no value", "statement": "If evaluation stops with the black-hole (infinite loop) error then the program has no value under call-by-name evaluation.", "quantifier": "every well-formed program and every state reached by its run", "why_tests_cant": "A false report depends on which slots are placeholders when some other code looks at them, which depends on the whole history of the run.", "anchors": ["src/eval/bytecode/machine.rs: enter_local, blackhole", "src/eval/error.rs: BlackHole"]}
{"id": "C44", "title": "A definition's expression is evaluated at most once", "statement": "Once the evaluation of the expression held by an environment slot has begun it is never begun again, so a binding's cost is paid once however many times it is used.", "quantifier": "every state, every environment slot and every later state of the run", "why_tests_cant": "Counting evaluations in a finite run says nothing of other runs, longer runs or other sharing patterns.", "anchors": ["src/eval/bytecode/machine.rs: enter_local, update", "src/eval/memory/syntax.rs: LambdaForm update flag"]}
{"id": "C45", "title": "Integer arithmetic is exact or an error", "statement": "For two integers that both fit a signed 64-bit word, or are both non-negative, addition, subtraction and multiplication either give the exact integer or raise a range error; the sum and product raise the error only when the result does not fit a signed word. An integer power that fits is exact. Addition and multiplication do not depend on the order of the operands, whatever numbers they are. In all other cases the operands are rounded to the nearest double and the sum, difference or product is the double nearest to the exact sum, difference or product of those. Every result of an arithmetic intrinsic is again a 64-bit integer or a finite canonical double.", "quantifier": "all pairs of numbers the runtime can hold: unsigned 64-bit integers, negative signed 64-bit integers, finite doubles", "why_tests_cant": "there are 2^128 pairs; the errors lie at boundaries between three tiers (signed, unsigned, double) that examples miss", "anchors": ["src/eval/stg/arith.rs Add Sub Mul Pow", "src/eval/stg/support.rs num_arg"]}
{"id": "C46", "title": "Division obeys its laws", "statement": "For two integers that both fit a signed word or are both non-negative, with non-zero divisor and other than the lowest word by -1, `/` and `mod` give q and r with a = b*q + r and r between zero and b (with the sign of b), and `quot` and `rem` give q and r with a = b*q + r, |r| < |b| and r of the sign of a. Dividing by zero, in any of the five division intrinsics and for any kind of zero, is a division-by-zero error, and no other division is. Quotients are whole numbers for all operands. `floor` and `ceil` give the greatest whole number not above and the least not below. The remainder of doubles is exact. Exact division gives the double nearest to the quotient.", "quantifier": "all pairs of numbers the runtime can hold", "why_tests_cant": "sign combinations, the three tiers and the rounding of doubles interact over 2^128 pairs", "anchors": ["src/eval/stg/arith.rs Div Mod PreciseDiv Quot Rem Floor Ceiling is_zero floor_div_i64 floor_mod_i64 num_from_floored"]}
{"id": "C47", "title": "Numbers are ordered consistently", "statement": "Comparison of two numbers never fails; exactly one of less, equal and greater holds; the five tests agree with each other and with swapped operands. Integers, and numbers that doubles represent exactly, compare by their exact values. For all numbers, what compares as less is less, and less-than is transitive and irreflexive.", "quantifier": "all pairs and triples of numbers the runtime can hold, including mixtures of integers and doubles", "why_tests_cant": "transitivity over mixed integer and double comparisons is a statement about all triples; rounding boundaries are not found by examples", "anchors": ["src/eval/stg/arith.rs num_ord Gt Gte Lt Lte", "src/eval/stg/eq.rs num_eq"]}
{"id": "C48", "title": "Bit operations compute on the 64-bit word of the same value", "statement": "A number whose value is a signed 64-bit integer, whether held as an integer or as a double, is operated on as that word: and, or, xor act bit by bit, not gives -a-1, a right shift by 0 to 63 rounds down, a left shift agrees modulo 2^64 and is multiplication when the result fits. Numbers without such a value are refused, and so are other shift distances.", "quantifier": "all pairs of numbers the runtime can hold", "why_tests_cant": "the claim is about every bit of every pair of words and about the boundary of what is refused", "anchors": ["src/eval/stg/arith.rs require_i64 BitAnd BitOr BitXor BitNot Shl Shr"]}
{"id": "C49", "title": "Sorting numbers and running totals", "statement": "Sorting a list of numbers gives their values as doubles, each as often as it occurs, in ascending order. The i-th running maximum (minimum) is the greatest (least) of the first i numbers. Running sums of whole numbers are exact as long as they stay within 2^53.", "quantifier": "all lists of numbers, of any length", "why_tests_cant": "lists of every length and order", "anchors": ["src/eval/stg/list.rs SortNumList", "src/eval/stg/running.rs RunningMax RunningMin RunningSum", "src/eval/stg/support.rs collect_num_list machine_return_num_list"]}
{"id": "C50", "title": "Looking up a key finds the first entry that has it, lazily", "statement": "lookup, lookup-or and safe lookup of a key in a block give the value of the first entry with that key, unevaluated, without looking at the values of earlier entries or at anything after it. If the entries end without one, the result is the default, null, or the error naming key and block. On something that is not a block, lookup fails and the safe lookup is null.", "quantifier": "all blocks (of any length, with entries in either representation, possibly infinite or failing further on), all keys and defaults", "why_tests_cant": "blocks of every length and every arrangement of duplicate keys, lazy and failing parts", "anchors": ["src/eval/stg/block.rs LookupOr SafeLookup Lookup MatchesKey ExtractValue", "src/eval/stg/eq.rs Eq"]}
{"id": "C51", "title": "Making a block from pairs and listing its elements are inverse", "statement": "A block made from a list of pairs has one entry for each, in order, with the same key and the same unevaluated value; its elements are one key-value list for each entry, in order; a key looked up in it gives the value of the first pair with that key. The two representations of entries have the same key, value, and conversions.", "quantifier": "all lists of pairs in any mix of representations, of any length", "why_tests_cant": "every length and mix of representations, with values that may fail", "anchors": ["src/eval/stg/block.rs Block Kv Dekv Elements ExtractKey ExtractValue PackPair BlockPair"]}
{"id": "C52", "title": "Conditions decide in order and lazily", "statement": "and, or look at their second operand only if the first does not decide; if evaluates only the branch chosen; cond chooses the first clause that holds without looking at anything after it or at the values of those before, else the first thing that is not a clause, else null. Operands that are looked at and are not booleans are errors. head, tail, nil? and cons are those of lists.", "quantifier": "all operands, including ones that fail or never end, and clause lists of any length", "why_tests_cant": "laziness is a claim about operands that have no value and about clause lists of every length", "anchors": ["src/eval/stg/boolean.rs Not And Or If Clause Cond", "src/eval/stg/list.rs Cons Head Tail"]}
{"id": "C53", "title": "The generated wrapper hands an intrinsic its arguments in place", "statement": "For an intrinsic of any signature, the call has a value exactly when every strict argument evaluates to something of its declared type; the intrinsic then receives, at each argument's own position, the evaluated and unboxed strict arguments and the others unevaluated, and its result is put in the box of its declared type, before it is computed.", "quantifier": "all arities, all combinations of argument types and strictness, all result types, all arguments", "why_tests_cant": "the positions are computed from the whole signature; only some signatures are in use and tested", "anchors": ["src/eval/stg/wrap.rs wrap", "src/core/analyse_demand.rs strict_indices_for"]}
{"id": "C54", "title": "Evaluating a whole list evaluates every element, in order", "statement": "The sequencing of a list of numbers or strings gives the same elements unboxed and evaluated, in the same order; it has a result only if the list ends and every element evaluates. Evaluating the spine has a result exactly when the list ends, and looks at no element.", "quantifier": "all lists, finite, infinite or failing at any point", "why_tests_cant": "lists of every length; failure or divergence at every position", "anchors": ["src/eval/stg/force.rs SeqStrList SeqNumList SeqSpine"]}
{"id": "C55", "title": "Metadata is transparent and can be read back", "statement": "Attaching metadata to an expression changes nothing that is seen of its value; reading the immediate metadata back gives what was attached, without evaluating the expression; the metadata of a value without any is an empty block.", "quantifier": "all metadata and all expressions, including ones without a value", "why_tests_cant": "claims about all expressions, including failing ones", "anchors": ["src/eval/stg/meta.rs RawMeta WithMeta", "src/eval/stg/constant.rs KEmptyBlock"]}
{"id": "C56", "title": "A key written in the program is looked up as any other", "statement": "`b.x` gives the value of the first entry of `b` with key x, or the default (for `b.x` itself, the full lookup) if there is none. The block is evaluated first if it has not been, once. The value does not depend on what has been evaluated before.", "quantifier": "all blocks, keys, environments, heaps and stacks", "why_tests_cant": "the fast path reads the heap as it is at that moment: which entries are evaluated depends on the whole history of the run", "anchors": ["src/eval/bytecode/machine.rs bc_lookup_in_block value_symbol pair_key_symbol Op::LookupLit", "src/eval/stg/compiler.rs compile_lookup"]}
{"id": "C57", "title": "Merging blocks overrides, keeps order, and is associative", "statement": "Merging two blocks gives a block with every key of either once, in order of first appearance; a key has the value given last, the right block's over the left's. A merge function is applied to the two values where both blocks have the key. Merging is associative, metadata included, and the empty block is neutral for blocks that have each key once. The metadata of the result is that of the right operand if it has any, else of the left. Anything that is not a block is refused.", "quantifier": "all blocks, with any keys, values, number of entries, repeated keys and metadata", "why_tests_cant": "laws over all triples of blocks of any size", "anchors": ["src/eval/stg/block.rs Merge MergeWith deconstruct", "src/eval/stg/support.rs machine_return_block_pair_closure_list"]}
{"id": "C58", "title": "Deep merge acts path by path", "statement": "What a path of keys finds in `l << r` is: the deep merge of the two where both have something; what the only one has where one has something and the other a block without the key; nothing below a non-block of r. Two non-blocks, or a block and a non-block, give the right one. Deep merging is idempotent, has the empty block as unit, and is associative unless the middle operand has a non-block where both others have blocks. The metadata found is that of the right operand, else the left.", "quantifier": "all pairs and triples of values whose blocks have each key once, and all paths", "why_tests_cant": "ranges over nesting of any depth and all paths", "anchors": ["src/eval/stg/block.rs DeepMerge MergeWith"]}
{"id": "C59", "title": "Equality is an equivalence that merging and lookup respect", "statement": "`=` is reflexive and symmetric, ignores metadata and the form of block entries, and is transitive where numbers are integers, or exact as doubles. Equal values give equal results when looked into along any path, and merging or deep merging equal blocks gives equal blocks.", "quantifier": "all values built from numbers, strings, symbols, booleans, lists, blocks and metadata", "why_tests_cant": "an equivalence over all triples of arbitrarily nested values", "anchors": ["src/eval/stg/eq.rs Eq num_eq str_eq", "src/eval/stg/block.rs ExtractKey ExtractValue"]}
{"id": "C60", "title": "Stacked metadata combines, the outermost layer winning", "statement": "Reading metadata never fails. The block layers above the first layer that is not a block are combined: each key has the value of the outermost layer that has it. An outermost layer that is not a block is reported alone. `merge-meta` overrides and extends what was there, and leaves the value unchanged.", "quantifier": "all values with any number of layers of metadata of any shape", "why_tests_cant": "any number of layers, any mix of block and opaque layers", "anchors": ["src/eval/stg/meta.rs Meta RawMeta WithMeta", "lib/prelude.eu merge-meta"]}
{"id": "C61", "title": "Sorting keeps the elements, orders them and keeps ties in place", "statement": "qsort and sort-by return the same elements in ascending order for any strict weak less-than, and elements that tie keep the order they had; that determines the result. For any comparison at all sorting ends with the same elements. max-of and min-of return an element that none exceeds, max-of-by and min-of-by the first such; an empty list is an error.", "quantifier": "every finite list, every comparison function (for order: every strict weak order), every key function", "why_tests_cant": "Stability and order must hold for every list and comparison; tests try a few lists.", "anchors": ["lib/prelude.eu: qsort, sort-by, discriminate, max-of, min-of, max-of-by, min-of-by"]}
{"id": "C62", "title": "Cutting lists loses and invents nothing", "statement": "take, drop, split-at, take-while, drop-while, split-after and their until forms cut a list in two parts that together are the list, at the count or at the first element that fails the test; rotate moves every element by the count; nth, update-nth and update-first find or change exactly one element or report an error. Counts that are negative or past the end are not handled alike: drop fails, take returns everything, rotate does nothing.", "quantifier": "every finite list, every integer count, every predicate", "why_tests_cant": "The boundary behaviour is a statement about every count and length.", "anchors": ["lib/prelude.eu: take, drop, split-at, rotate, take-while, drop-while, split-after, nth, update-nth, update-first, tails, last, butlast"]}
{"id": "C63", "title": "Folds, maps and zips have their standard meaning", "statement": "foldl, foldr, reduce, scanl, scanr, map, filter, remove, reverse, append, concat, mapcat, count, all, any, zip, unzip, map2, interleave and cross give what the mathematical functions of those names give; in particular the i-th running fold is the fold of the first i elements, unzip undoes zip up to the shorter length, interleave alternates and appends the rest.", "quantifier": "every finite list and every total function", "why_tests_cant": "An equation between functions on all lists.", "anchors": ["lib/prelude.eu: foldl, foldr, reduce, scanl, scanr, map, filter, remove, reverse, append, concat, mapcat, count, all, any, zip, unzip, map2, interleave, cross"]}
{"id": "C64", "title": "Windows, partitions and transposition", "statement": "window(n, step) is the list of the full windows at 0, step, 2 step and so on, window-all includes the short ones, partition-all concatenates back to the list, partition loses only a rest shorter than n, over-sliding-pairs combines neighbours, transpose exchanges rows and columns of a matrix and is its own inverse. A list that ends in the gap between windows makes window end in an error; a step of zero never ends; ragged rows are an error or lose elements.", "quantifier": "every finite list, every window size and step from 1 up, every non-empty matrix", "why_tests_cant": "The end of the list relative to the last window has unboundedly many cases; the failing ones need step greater than size.", "anchors": ["lib/prelude.eu: window, partition, window-all, partition-all, over-sliding-pairs, differences, transpose"]}
{"id": "C65", "title": "Grouping partitions a list and keeps its order", "statement": "discriminate, group-by, group-consecutive-by, uniq, nub-by and split-on distribute the elements of a list without loss or duplication and keep their order: group-by has each key once, in order of appearance, with exactly its elements; consecutive groups concatenate to the list and break exactly where the key changes; uniq drops an element equal to the one before; nub-by keeps the first of each key; split-on breaks at exactly the separators.", "quantifier": "every finite list, every key function, every equality that is an equivalence (for group-by: symbols)", "why_tests_cant": "No loss, no duplication and order are statements about every list.", "anchors": ["lib/prelude.eu: discriminate, group-by, update-value-or, group-consecutive-by, uniq, nub-by, split-on"]}
{"id": "C66", "title": "Ranges and infinite lists", "statement": "range(b, e) is the finite list of the integers from b up to but not including e when b <= e; the i-th element of repeat, iterate, iota and cycle is the item, the i-fold application, n + i, and the element at i modulo the length; take of an infinite list is its first n elements. When e < b the range is not empty but infinite.", "quantifier": "every pair of integers, every position", "why_tests_cant": "A statement about an infinite list cannot be tested; the failing ranges do not end.", "anchors": ["lib/prelude.eu: range, iota, ints-from, repeat, iterate, cycle, take"]}
{"id": "C67", "title": "Block updates and lookups along paths", "statement": "update, alter, set-value, merge-at and deep-merge-at change exactly what lies at the given path: the value there becomes the function's result, the given value, or the merge of old and new; everything on a path that parts from it is as before; keys keep their order and a new key goes to the end. They fail exactly when the path leads through something that is not a block (or the function or merge fails). update and alter never add a key. select and dissoc split a block by keys and keep order; map-values and map-keys keep the correspondence of keys and values; merge-all takes each key from the last block that has it; sort-keys permutes without changing any lookup; lookup-path, lookup-alts, lookup-across and has agree with what is there.", "quantifier": "all blocks with any nesting, all paths, values and functions", "why_tests_cant": "blocks nest without bound and the claim is about every other path in them", "anchors": ["lib/prelude.eu: lookup-path, lookup-alts, lookup-across, has, keys, values, map-values, map-keys, select, dissoc, alter-value, update-value, alter, update, update-value-or, set-value, merge-at, deep-merge-at, merge-all, sort-keys, zip-kv", "src/eval/stg/block.rs: Elements, Block, LookupOr"]}
{"id": "C68", "title": "Deep searches find every occurrence and nothing else", "statement": "deep-find(k) and deep-find-paths(k) report exactly the occurrences of key k in blocks at any depth under blocks and lists, and without lists each path leads to the value and is reported once. deep-query(pattern) reports exactly the values on paths a suffix of which fits the pattern, * standing for one key and ** for any number, ** at the end for blocks only; each place once if ** is used only at the beginning.", "quantifier": "all nested values, keys and patterns", "why_tests_cant": "values and patterns are unbounded and completeness is about occurrences a test does not think of", "anchors": ["lib/prelude.eu: deep-fold, deep-find, deep-find-first, deep-find-paths, deep-query-fold, deep-query, deep-query-first, deep-query-paths"]}
{"id": "C69", "title": "Rewriting and structural matching", "statement": "deep-transform(rule) replaces exactly the topmost nodes for which the rule gives a value and leaves every other atom, the keys of every other block and the length of every other list as they were. match?(pattern, value) is true exactly if the value conforms: every key of the pattern is there with a conforming value, lists agree in length and elements, atoms are equal and functions hold; extra keys do not matter; data matches itself.", "quantifier": "all values, rules and patterns", "why_tests_cant": "recursion over unbounded nesting", "anchors": ["lib/prelude.eu: deep-transform, match?"]}
{"id": "C70", "title": "C-string escapes", "statement": "The content of a c-string is accepted exactly if it is a sequence of ordinary characters and well-formed escapes (\\n \\r \\t \\\\ \\\" \\0 \\{ \\}, \\x with two, \\u with four and \\U with eight hexadecimal digits of a Unicode scalar value); its value is the text they write, and otherwise the error describes the first malformed escape. Every text can be written as a c-string that ends where it should and reads back as the text; every text of scalar values can be written in ASCII.", "quantifier": "all contents and all texts", "why_tests_cant": "contents are unbounded and the round trip is about every text", "anchors": ["src/core/desugar/escape.rs: process_escapes, read_hex_digits, char_from_code_point", "src/syntax/rowan/lex.rs: dquote, content_has_unescaped_braces_cstring"]}
{"id": "C71", "title": "Quoting for the shell", "statement": "A POSIX shell reads the result of str.shell-escape as one word, the original text, without any expansion. Between double quotes it reads the result of str.dq-escape as the original text, without any expansion.", "quantifier": "all texts", "why_tests_cant": "injection safety is about every text", "anchors": ["lib/prelude.eu: shell-escape, dq-escape", "src/eval/stg/string.rs: STR_REPLACE"]}
{"id": "C72", "title": "String interpolation", "statement": "A string written as texts (braces doubled in plain and raw strings, escaped in c-strings) and holes {path:format} ends at its closing quote and has the value of its texts and the values of its holes joined in order, each hole referring to the next argument, the numbered argument, the variable or the path it names, with its format. Any content either compiles or is refused because a hole is left open, an escape is malformed or a path is empty; the tokens of the pattern are slices of the content in order.", "quantifier": "all sequences of texts and holes, and all contents", "why_tests_cant": "sequences and texts are unbounded and adjacent parts interact", "anchors": ["src/syntax/rowan/string_lex.rs: StringPatternLexer, CStringPatternLexer", "src/syntax/rowan/parse.rs: parse_string_pattern, parse_string_interpolation_content", "src/core/desugar/rowan_ast.rs: desugar_rowan_string_pattern"]}
{"id": "C73", "title": "Lexing", "statement": "Every source text is split into tokens. Each token is the piece of the source at its position; tokens come in order, do not overlap, and leave out nothing but whitespace inside the holes of interpolated strings. The kind of a token determines the form of its text, no token could have been longer, and an unterminated quotation goes to the end of the source. An opening parenthesis, bracket or brace is an application or lookup exactly when it directly follows an identifier, a closing bracket or an interpolated string. Unterminated quotations are reported.", "quantifier": "all source texts and all Unicode tables in which whitespace is not a letter, digit, symbol or punctuation", "why_tests_cant": "source texts are unbounded and every pair of adjacent tokens interacts", "anchors": ["src/syntax/rowan/lex.rs: Lexer::next, normal, number, colon, minus, dquote, paren, brace, square", "src/syntax/rowan/kind.rs: is_callable_terminal", "src/syntax/rowan/validate.rs: Validatable"]}
{"id": "C74", "title": "Conservative formatting", "statement": "eu fmt in its default mode changes nothing but whitespace: the output has the same tokens in the same order with whitespace between the same tokens, every token stays on its line and in the column in which it was displayed with tab stops of eight, the whitespace has no tabs or carriage returns, the output ends with a line end, and formatting it again changes nothing.", "quantifier": "all source texts", "why_tests_cant": "source texts are unbounded and a change of whitespace between any two tokens can merge them or change their meaning", "anchors": ["src/syntax/export/format.rs: Formatter::format_unit, process_token_conservative, normalize_whitespace, format_source", "src/syntax/rowan/lex.rs: Lexer"]}
{"id": "C75", "title": "Parsing keeps every token and ends", "statement": "Parsing ends on every source, as a unit or as an expression; the tree it makes, with or without errors, has exactly the tokens of the source as its leaves, in their order, so its text is the source up to spaces in string holes; it makes a tree and does not panic, and the errors it reports are about places inside the source.", "quantifier": "all source texts and all token sequences", "why_tests_cant": "sources are unbounded and malformed ones are unlimited in kind; a token can be lost or a panic reached by a combination of brackets, colons, commas and backticks that nobody wrote down", "anchors": ["src/syntax/rowan/parse.rs: Parser, BlockEventSink, parse_unit, parse_expr", "src/syntax/rowan/mod.rs: parse_unit, parse_expr"]}
{"id": "C76", "title": "Well-formed sources get their structure", "statement": "A source written by the grammar (a unit of optional metadata and declarations, each with optional backtick metadata, a head, a colon and a body; expressions of names, literals, strings with holes, parentheses, calls, lists with or without a tail, blocks, Unicode brackets, with blanks and comments between them) parses without errors, and its tree is exactly the one the grammar gives it: which name heads which declaration, what is metadata, body, argument and separator. No source has two structures.", "quantifier": "all trees of the grammar, of any size and depth, and the sources with their tokens", "why_tests_cant": "the parser finds the head of a declaration only when it meets the colon, by splitting what it already took as the body of the declaration before, at every depth of nesting; tests see a few arrangements of blanks, commas, metadata and nesting", "anchors": ["src/syntax/rowan/parse.rs: Parser, BlockEventSink, parse_unit, parse_expr, try_parse_element, commit_declaration, split_trailer"]}
{"id": "C77", "title": "Which sources are accepted", "statement": "A parsed source is accepted exactly if every part of it is in order: each declaration has a head of one of the forms (a name, a function with parameters, an operator, a pair of brackets), a colon and a body, each expression is not empty, brackets are closed and paired, quotes are closed, dates are dates. A source by the grammar with proper heads, literals and brackets is accepted; of a source that is accepted no part is dropped and no bracket is left open.", "quantifier": "all syntax trees and all token sequences; all Unicode tables, mirrorings and date checks", "why_tests_cant": "trees nest without bound and each kind of node is checked by its own function; a kind of child that one of them forgets to check makes malformed sources silently accepted, and only at the places nobody tried", "anchors": ["src/syntax/rowan/validate.rs: Validatable", "src/syntax/rowan/ast.rs: classify_declaration, classify_operator, classify_bracket_direct, Element", "src/syntax/rowan/mod.rs: parse_unit, parse_expr, Parse::ok"]}
{"id": "C78", "title": "Removing superfluous allocations does not change results", "statement": "The pass over compiled code that removes definitions which only rename other variables ends without panicking, keeps every variable in scope and makes no more definitions than before; whatever can be seen of the result of the program (values, functions' arities, constructors and any part of their fields) can be seen of the result of the optimised program, and nothing else can.", "quantifier": "all programs in scope and with constructors of their arities, all global definitions, all operators, all parts of the result looked at", "why_tests_cant": "every index under a removed definition is renumbered through a stack of changes of unbounded depth; a shift missed under one kind of binder goes unnoticed until code nests just so, and then silently reads another variable", "anchors": ["src/eval/stg/optimiser.rs: AllocationPruner, LetIndexTransformation, BumpIndexTransformation, ShiftIndexTransformation", "src/eval/stg/compiler.rs: compile", "src/eval/stg/tags.rs: DataConstructor::arity"]}
{"id": "C79", "title": "Compiled code means what the core expression means", "statement": "Compiling a desugared expression to machine code - numbering of variables, sharing of list and block spines, inlining and fusing of intrinsics, direct calls, eager evaluation where the demand annotations ask for it, rendering - changes nothing about its result: whatever the compiled code shows, the expression read directly (every definition delayed, every variable the definition at its depth and position) shows; and the converse, unless an annotation forces something ahead of its use.", "quantifier": "all expressions, settings of the compiler, tables of signatures, global definitions the settings fit, operators, and parts of the result looked at", "why_tests_cant": "indices are computed by closures run later in contexts of unbounded nesting; a wrong shift in one binder shape, or a forced argument, shows only for expressions that nest or fail just so", "anchors": ["src/eval/stg/compiler.rs: Compiler::compile, compile_body, compile_binding, compile_let, compile_lambda, compile_application, compile_list, compile_block, Context::lookup", "src/eval/stg/compiler.rs: Binder, LetBinder, ProtoReference", "src/eval/bytecode/encode.rs: fused primops of globals"]}
{"id": "C80", "title": "Demand annotations are what the uses of a definition say, and never change a result", "statement": "The analysis that annotates definitions ends on every expression and changes nothing but annotations. In every let, a definition is marked unused exactly if the body needs it neither directly nor through other definitions; recursive exactly if it depends on itself; and used at most once only if no cycle of definitions contains or depends on it and it is not shown as part of a block. A signature recorded for a name belongs to a function defined under that name, one entry per parameter, unused exactly if the body does not use it. What a program compiled with the annotations shows is what it means without them; and, as the documentation claims, annotations affect only performance.", "quantifier": "all desugared expressions, tables of intrinsic signatures, compiler settings, global definitions, operators and parts of the result looked at", "why_tests_cant": "demands are found by iterating over dependency graphs of any size and shape, through arbitrarily nested scopes; a wrong mark shows only as a lost result in a program whose unused part fails", "anchors": ["src/core/analyse_demand.rs: analyse_demands, DemandAnalyser::analyse_expr, analyse_let, analyse_lam, analyse_app, lookup_signature, unshift_env, merge_envs", "src/core/demand.rs: Demand::plus, scale, lub", "src/driver/eval.rs: analyse_demands, user_demand_sigs"]}
{"id": "C81", "title": "An element computed by par-map is the value map would have computed", "statement": "Whatever value an element of a par-map has, it is the same value after it has been written to shared memory by one process and read by another: the same data, the same keys in the same order, the same metadata at every level. Functions, IO actions and other things that cannot be shown are refused with an error wherever they are inside the element. Writing and reading end for every value and for all bytes, and reading an element leaves whatever follows it untouched.", "quantifier": "all values (data whose parts may be unevaluated computations that raise, return or carry metadata), all byte strings, all behaviours of the UTF-8 check and of date formatting", "why_tests_cant": "Values nest without bound, any part may be a computation, and metadata may be anywhere; a test tries a few shapes and the failures are at shapes nobody wrote down.", "anchors": ["src/eval/stg/parallel/serialise.rs:force_and_serialise", "src/eval/stg/parallel/serialise.rs:serialise_forced", "src/eval/stg/parallel/serialise.rs:deserialise_value", "src/eval/stg/parallel/driver.rs:map_element", "src/eval/bytecode/machine.rs:enter_whnf_subrun"]}
{"id": "C82", "title": "par-map gives the same outcome however the work is shared out", "statement": "The outcome of par-map, a list in the order of the input or an error, does not depend on the number of workers, the order in which they write, whether workers fail, are killed or cannot be started, or what a failed worker left in memory: it is that of evaluating the elements one after another. Under EU_PP_STRICT=1 the only other outcome is the error that says that the workers failed, and that cannot happen if all workers end cleanly and all elements can be transferred.", "quantifier": "all lists of computations, all settings of the environment variables, all interleavings of the workers' writes, all fates of the workers, all contents of memory after a failure", "why_tests_cant": "Interleavings and crash points cannot be enumerated; a test sees the few schedules the machine happens to produce.", "anchors": ["src/eval/stg/parallel/driver.rs:par_map", "src/eval/stg/parallel/driver.rs:try_parallel", "src/eval/stg/parallel/driver.rs:chunk_bounds", "src/eval/stg/parallel/arena.rs:SegmentWriter", "src/eval/stg/parallel/arena.rs:SegmentReader"]}
{"id": "C83", "title": "par-map stays within its shared memory and leaves no worker behind", "statement": "A worker writes only to its own segment of the shared memory; the parent, whatever the memory holds, reads only records that lie inside the segment it reads, in order and apart, and no more than fit. Every element belongs to exactly one worker and no worker has two more than another; results are used only if there are exactly as many as elements. Every worker is waited for; if one fails, all later ones are killed and then waited for, and none is killed otherwise; the wait succeeds exactly if all ended cleanly, and else names the first that did not.", "quantifier": "all memory contents, segment sizes, numbers of elements and workers, and all ways in which the workers may end", "why_tests_cant": "Memory left by a crashed process may hold anything, and processes may end in any combination of ways.", "anchors": ["src/eval/stg/parallel/arena.rs:Arena", "src/eval/stg/parallel/driver.rs:chunk_bounds", "src/eval/stg/parallel/driver.rs:decide_workers", "src/eval/stg/parallel/fork.rs:join_all", "src/eval/stg/parallel/fork.rs:kill_and_reap"]}
{"id": "C84", "title": "An import specifier names the file, format and name that were written", "statement": "name=format@path is read as exactly that name, format and path, with white space around the parts ignored and whatever characters the path has; the name or the format may be left out if the rest has no sign that looks like one, and the format is then that of the extension, or eucalypt; what is shown in messages for a file can be written again. Reading never ends the process, and a path by itself is read as that path.", "quantifier": "all names, formats and paths, and all texts as specifiers", "why_tests_cant": "File names may contain any characters; tests use tame ones.", "anchors": ["src/syntax/input.rs:Input::from_str", "src/syntax/input.rs:Locator::from", "src/syntax/input.rs:infer_format"]}
{"id": "C85", "title": "Loading imports ends, loads everything imported, and finds the documented files", "statement": "Loading a file and its imports ends whenever only finitely many import paths can come up. If it succeeds, every file imported by a loaded file is loaded, from a place where a file of that path is, and no file imports itself through others. A cycle is reported only where files import each other in a circle; a file is reported unreadable only if it is in none of the places searched. Each import is the file that the documented order of search gives: the importing file's directory, then the library path.", "quantifier": "all directory trees, contents of import lists, library paths and main files", "why_tests_cant": "Import graphs and directory layouts are unbounded, and what is loaded depends on what was loaded before.", "anchors": ["src/driver/source.rs:load_tree_as", "src/driver/source.rs:load_source", "src/driver/source.rs:read_fs_input", "src/driver/source.rs:find_source_dir", "src/syntax/import.rs:ImportGraph", "docs/guide/imports-and-modules.md"]}
{"id": "C86", "title": "Names of imported files mean what the importing file expects", "statement": "Every name that a file declares, imports from another file, or gives to an imported file is bound wherever the file uses it, to the declaration or file it stands for, however often and by whatever routes files are imported; imports in a declaration's metadata make their names available in that declaration.", "quantifier": "all sets of files with acyclic imports, named or not, and all declarations in them", "why_tests_cant": "Whether an import is skipped depends on all imports desugared before it; there is no bound on the shapes of import graphs.", "anchors": ["src/core/desugar/desugarer.rs:translate_import", "src/core/desugar/rowan_ast.rs", "src/core/expr.rs:rebody"]}
{"id": "C87", "title": "The document written for a value shows the value", "statement": "Writing a value as JSON, YAML, TOML or eucalypt writes one document with exactly the value's visible parts: each list its visible elements in order, each block an entry for each visible entry that is not a function, each scalar as itself. What metadata hides is absent, and hiding one entry or having a function among them changes nothing about the others.", "quantifier": "all evaluated values of any depth, with any metadata, in any of the four formats", "why_tests_cant": "Values nest without bound, and the accumulator's state depends on everything emitted before.", "anchors": ["src/eval/stg/render.rs:Render", "src/eval/stg/render.rs:RenderKv", "src/eval/stg/emit.rs", "src/export/table.rs:TableAccumulator"]}
{"id": "C88", "title": "Output is a whole document or nothing", "statement": "For every value, either evaluation succeeds and exactly one complete document is written, or a failure is reported and nothing at all is written, wherever in the value the failure arises.", "quantifier": "all values, including improper lists, functions, opaque values and malformed entries, and all four formats", "why_tests_cant": "A failure can come after any number of events.", "anchors": ["src/export/table.rs:TableAccumulator::consume", "src/driver/eval.rs:finish_stream"]}
{"id": "C89", "title": "A value is refused exactly when the format cannot carry it", "statement": "A value that is data is refused if and only if something visible in it has no representation in the format: a null in TOML, an integer above the signed 64-bit range in YAML or TOML, a key that is not text in JSON, TOML or eucalypt. Nothing is coerced instead of refused, nothing else is refused.", "quantifier": "all values that are data, of any depth, and all four formats", "why_tests_cant": "The offending part can be anywhere in an unbounded value.", "anchors": ["src/export/mod.rs:unrepresentable_key", "src/export/yaml.rs:yaml_integer_overflow", "src/export/toml.rs:toml_unrepresentable", "src/eval/stg/emit.rs:emit_scalar"]}
{"id": "C90", "title": "Tags in metadata come out as YAML tags", "statement": "A value with a tag in its metadata is written to YAML with that tag, whatever the value is and whatever other metadata it has.", "quantifier": "all values and tags", "why_tests_cant": "Every kind of value is rendered by its own branch, and metadata can be in any number of layers.", "anchors": ["src/eval/stg/render.rs:Tag", "src/eval/stg/emit.rs:tag_from_arg", "src/export/yaml.rs"]}
{"id": "C91", "title": "Under each key the document has what the language finds there", "statement": "In the document written for a block, each key occurs once, in the order of the block (in JSON that of the keys), and has the value that looking the key up in the block gives.", "quantifier": "all blocks, however built, with any number of entries and any keys", "why_tests_cant": "Blocks built from lists can repeat keys any number of times; the four formats collect entries in different maps.", "anchors": ["src/export/table.rs:FromPairs", "src/export/json.rs", "src/export/yaml.rs", "src/export/toml.rs", "src/eval/stg/block.rs:Block"]}
{"id": "C92", "title": "A format specifier is read as written, and text fills its field", "statement": "For a format written as %[flags][width][.precision][length]letter, str.fmt and interpolation holes put a string or symbol, cut to the precision, in a field of at least the width, with spaces on the left, or on the right under the flag -; any other format is refused.", "quantifier": "all format strings and all strings, symbols, numbers, booleans and null", "why_tests_cant": "There are unboundedly many combinations of flags, widths and precisions, and of texts around them.", "anchors": ["src/eval/stg/printf.rs:parse_format", "src/eval/stg/printf.rs:write_str", "src/eval/stg/string.rs:Fmt", "docs/guide/advanced-topics.md"]}
{"id": "C93", "title": "Hexadecimal and octal formats write the 64-bit word of an integer", "statement": "With x, X or o an integer is written as the numeral of its 64-bit two's complement word in that base, with the sign, padding and alternate form asked for; numbers that are not such integers are refused.", "quantifier": "all formats with these letters and all numbers", "why_tests_cant": "It ranges over all 2^64 integers and all widths and flags.", "anchors": ["src/eval/stg/printf.rs:write_numeric", "docs/guide/advanced-topics.md"]}
{"id": "C94", "title": "Decimal formats write the number", "statement": "With d an integer is written as its decimal numeral, with its sign and the padding asked for, whatever its size; the other letters give the notation documented for them.", "quantifier": "all formats with these letters and all numbers", "why_tests_cant": "Errors sit at particular magnitudes, above 2^53, that samples of ordinary numbers do not reach.", "anchors": ["src/eval/stg/printf.rs:write_numeric", "docs/guide/advanced-topics.md"]}
{"id": "C95", "title": "eu test succeeds exactly when every expectation holds", "statement": "eu test exits with 0 exactly when each of the files passes, and a file passes exactly when everything run from it meets every validation it names, or the standard one: no failed assertion was reported and the result says PASS. Files skipped for lack of permission do not count as failures, and an interrupted test does not pass.", "quantifier": "all test files with any targets, formats and validations, all outcomes of evaluating them, and all lists of files", "why_tests_cant": "Whether a green run can hide a failing target depends on names, formats and validations in combination; the project's own tests are run by this very code.", "anchors": ["src/driver/tester.rs:run_plans", "src/driver/tester.rs:InProcessTester", "lib/test.eu:verification", "src/core/analyse/testplan.rs:TestPlan"]}
{"id": "C96", "title": "eu test runs the right targets, in whatever order they are kept", "statement": "The targets run are the tests and benchmarks of the file itself, its main target and those that name validations, each in its own format or in those of the header; where there are none, the file as a whole. The order in which the targets are kept, which is that of a hash table and differs between runs, makes no difference to the verdict.", "quantifier": "all sets of targets, all orders of them", "why_tests_cant": "The order changes from process to process, so a dependence on it shows up only sometimes.", "anchors": ["src/core/analyse/testplan.rs:TestPlan::analyse", "src/core/unit.rs:TranslationUnit::target", "src/core/target.rs:Target"]}
{"id": "C97", "title": "Error tests pass exactly when the error is as expected", "statement": "An error test passes exactly when the exit code and the error output are as the sidecar file, documented as key-value YAML, says; what was said last counts, and a sidecar that asks for nothing is an error.", "quantifier": "all sidecar files, exit codes and error outputs, and all regular expression engines", "why_tests_cant": "A misread expectation makes a test pass for every behaviour of the program, which no run of that test shows.", "anchors": ["src/core/analyse/testplan.rs:ErrorExpectation", "src/driver/tester.rs:error_test_with_binary"]}
{"id": "C98", "title": "A YAML document is read as the data it holds", "statement": "Reading a YAML document gives the data it holds: sequences as lists and mappings as blocks in order, an alias as a copy of what it names, merged entries as documented with explicit keys winning, embedded code referring to the mappings around it; anything else is an error, never a panic.", "quantifier": "all documents of any depth, with any anchors, aliases, merge keys and tags on scalars", "why_tests_cant": "The importer is a stack machine over events; what an alias or a merge key yields depends on everything read before it.", "anchors": ["src/import/yaml.rs:Receiver", "src/import/yaml.rs:handle_merge", "src/import/yaml.rs:extract_merge_entries", "docs/reference/import-formats.md"]}
{"id": "C99", "title": "Plain scalars of YAML get the types of the core schema", "statement": "An unquoted scalar is null, a boolean or a number exactly when the YAML core schema says so, or a time, and otherwise the string as written; a quoted scalar is always a string.", "quantifier": "all scalar texts", "why_tests_cant": "The types are decided by thirteen regular expressions tried in order; a pattern anchored at one end only misreads infinitely many texts that no test lists.", "anchors": ["src/import/yaml.rs:infer_tag_for_plain_scalar", "src/import/yaml.rs:convert_scalar", "src/import/yaml.rs:parse_bool"]}
{"id": "C100", "title": "Parsing data never runs code in it", "statement": "parse-as yields inert data for every text in every format: code embedded in the text (such as YAML !eu tags) is never made into an expression to be evaluated.", "quantifier": "all texts and all formats parse-as takes", "why_tests_cant": "It is a security property over all inputs, including hostile ones, and holds only if every importer honours the flag.", "anchors": ["src/eval/stg/parse_string.rs", "src/import/mod.rs:read_to_core_data_only", "src/import/jsonl.rs:read_jsonl", "lib/prelude.eu:parse-as"]}
{"id": "C101", "title": "IO programs run in order, once, up to the first failure, and only with permission", "statement": "Running an IO program performs its actions one after the other in the order given by bind, each exactly once, hands every result to what follows, and does nothing more after the first failure. The monad laws hold for what is observed, and io.map, io.then, io.sequence, io.map-m and io.filter-m do what their definitions say, left to right. Without --allow-io no process is ever started.", "quantifier": "all IO programs, of any size and nesting and including endless ones, all behaviours of the operating system, both settings of --allow-io", "why_tests_cant": "Tests run a few programs against a few commands. The claim is about every program and every way the commands can behave; a driver that loses track of what it has stashed would only show in deep nestings.", "anchors": ["src/driver/bytecode_io_run.rs:io_run", "lib/prelude.eu:io", "lib/prelude.eu:monad"]}
{"id": "C102", "title": "The process that is started is the one asked for", "statement": "io.shell, io.shell-with, io.exec and io.exec-with start exactly one process, with the command, the arguments, the standard input and the time limit that were given (30 seconds by default). Its output, errors and exit code are the result: 127 for a command that does not exist, 126 for one that may not be run. A command that exceeds its time is an error, and is killed.", "quantifier": "all commands, argument lists, options and behaviours of the operating system", "why_tests_cant": "Arguments and input are arbitrary texts, and lists can be evaluated to any extent; tests use a handful of literals.", "anchors": ["src/driver/io_common.rs:action_spec_from_fields", "src/driver/io_common.rs:run_command", "src/driver/bytecode_io_run.rs:evaluate_spec_block", "src/eval/bytecode/machine.rs:list_element_values", "lib/prelude.eu:io"]}
{"id": "C103", "title": "A checked command that fails stops the program", "statement": "A checked IO program gives its command's result if the exit code is zero and otherwise fails with the command's error output. In a sequence of checked commands, none after the first with another exit code is started.", "quantifier": "all programs, exit codes, outputs and sequences of commands", "why_tests_cant": "The claim covers sequences of any length and every exit code.", "anchors": ["lib/prelude.eu:check", "lib/prelude.eu:checked", "src/driver/bytecode_io_run.rs:io_run"]}
{"id": "C104", "title": "The language server and the editor mean the same place", "statement": "Every place in a document has the line and UTF-16 character that the language server protocol gives it, the server finds the same place again from them, different places have different positions, and positions past the end of a line or of the document mean its end. The two ways in which the server computes positions agree.", "quantifier": "all texts of Unicode characters, all places between characters, all positions", "why_tests_cant": "Tests use a few lines; an error shows only with particular mixes of line ends and characters of different widths.", "anchors": ["src/driver/lsp/diagnostics.rs:LineIndex", "src/driver/lsp/selection.rs:position_to_offset", "src/driver/lsp/alias_index.rs:byte_range_to_lsp_range"]}
{"id": "C105", "title": "Renaming changes exactly the occurrences of a name, and merges none", "statement": "With the cursor on or at either end of an identifier, renaming gives edits that, when the editor applies them, change every identifier of that name in the file to the new name, keeping quotes, and change nothing else. Finding references lists exactly those identifiers. Names that were different stay different; a new name that is not a name, or is in use, is refused.", "quantifier": "all token sequences, cursor positions and new names", "why_tests_cant": "The edits are given by positions, several at a time, in texts of arbitrary characters; tests check a few sources.", "anchors": ["src/driver/lsp/rename.rs:rename", "src/driver/lsp/references.rs:find_references", "src/driver/lsp/navigation.rs:find_identifier_at"]}
{"id": "C106", "title": "An expression after a dot is evaluated with the block's names first", "statement": "In `block.(expression)` every name in the expression that the block declares means the block's value, and every other name means what it means outside. This is the same whether the block is written out to the left of the dot or computed. Names bound inside the expression are not affected.", "quantifier": "all expressions, blocks, surroundings and meanings of the language's constructs", "why_tests_cant": "The expression is turned into a function and its references are renumbered; a wrong number shows only for particular nestings of scopes, of which there are infinitely many.", "anchors": ["src/core/transform/dynamise.rs:dynamise", "src/core/desugar/rowan_ast.rs:PendingLookup", "src/core/transform/succ.rs:succ"]}
{"id": "C107", "title": "A unit's public declarations, and only those, are seen by what is put under it", "statement": "An importer, or an expression looked up in a written-out block, sees the first public declaration of a name in the innermost unit that has one. Declarations marked `export: :internal` are not seen, their values do not matter, and they leave every other meaning of the name alone. Other names mean what they mean outside.", "quantifier": "all units (nested lets, with metadata), importing expressions and meanings of the language's constructs", "why_tests_cant": "References are bound by position in every enclosing scope at once, and clashes of names between units arise only for particular combinations of imports.", "anchors": ["src/core/expr.rs:rebody", "src/core/expr.rs:has_internal_export", "src/core/expr.rs:mask_internal_free_vars", "src/core/desugar/rowan_ast.rs:PendingLookup"]}
{"id": "C108", "title": "An XML document is read as its tree, or refused", "statement": "Importing or parsing XML gives, for the root element, a list of its name, its attributes and its content, in order: elements likewise, and each run of text between elements, with references resolved and the white space around it removed, as one string. No attribute and no text is lost. Text that is not such a document gives an error.", "quantifier": "all documents: trees of any shape and depth, texts, attributes, remarks", "why_tests_cant": "Trees are unbounded in depth and width, and text arrives in fragments between which white space must be kept or dropped; unfinished documents can be cut anywhere.", "anchors": ["src/import/xml.rs:read_xml", "src/import/xml.rs:flush_text", "src/import/xml.rs:to_proto_element"]}
{"id": "C109", "title": "A streamed file gives the values that importing it gives", "statement": "The elements of text-stream@f are the lines of f, the same as those of text@f: each without its newline, or carriage return and newline, and otherwise unchanged. The elements of csv-stream@f are the rows of f, the same as those of csv@f: blocks with the columns in the order of the file, each with its value.", "quantifier": "all texts, headers and records", "why_tests_cant": "Lines end in different ways, also mixed and at the end of the text, and columns can have any names in any order; tests use a few files with ordinary ones.", "anchors": ["src/import/stream.rs:TextProducer", "src/import/stream.rs:CsvProducer", "src/import/text.rs:read_text", "src/import/csv.rs:read_csv"]}
{"id": "C110", "title": "Streams are read independently, each item once and in order", "statement": "Reading a stream step by step or all at once takes each of its items once, in order, up to an error, whatever other streams are opened and read before, in between or after. Different streams have different handles. A parallel worker never takes an item from a stream backed by a file.", "quantifier": "all histories of opening and reading streams and of becoming a worker", "why_tests_cant": "Interleavings of reads of several streams are unbounded; tests read one or two.", "anchors": ["src/eval/stg/stream.rs:ProducerTable", "src/eval/stg/stream.rs:producer_next", "src/eval/stg/stream.rs:producer_drain", "src/eval/stg/stream.rs:enter_parallel_worker"]}
{"id": "C111", "title": "Highlighting, selecting and folding in the editor are where the tokens and nodes are", "statement": "The semantic tokens sent to an editor, decoded as the protocol says, are the classified tokens of the source in order, each at its line and UTF-16 column and with its UTF-16 length. Expanding the selection at a position goes from a node of the syntax tree that the cursor touches, and none of whose child nodes it touches, through parts of the text that contain each other and the cursor, to the whole text. The foldings are exactly the nodes of the kinds that fold whose text has a newline. A token lies within its line.", "quantifier": "every source text (any characters), every sequence of tokens with any classification, every syntax tree over the text, every position in it", "why_tests_cant": "the encoding is relative, so one wrong token moves all that follow; tests try a few short ASCII documents", "anchors": ["src/driver/lsp/semantic.rs: semantic_tokens_full", "src/driver/lsp/selection.rs: selection_ranges", "src/driver/lsp/folding.rs: folding_ranges"]}
{"id": "C112", "title": "Formatting requests change what was asked for, and only that", "statement": "Applying the edits for formatting a document makes it what the formatter makes of it. Applying the edits for formatting a range changes the top-level declarations that overlap the range (each with the newline after it) to what the formatter makes of them and leaves every other character alone. A cursor within or at a declaration formats it, and positions are read as for other requests.", "quantifier": "every source text (any characters), every division into declarations, every formatting of them, every range of the text", "why_tests_cant": "edits are by line and UTF-16 column; tests try short ASCII documents and a few ranges", "anchors": ["src/driver/lsp/formatting.rs: format_document", "src/driver/lsp/formatting.rs: format_range"]}
{"id": "C113", "title": "At a bracket, the editor highlights the pair", "statement": "With the cursor at or within a bracket of a bracket pair, exactly the two brackets of that pair are highlighted, where they are in the source. With another token after the cursor nothing is highlighted. A cursor just after a bracket highlights the pair too.", "quantifier": "every source text (any characters), every nesting of brackets, every position", "why_tests_cant": "pairs nest without bound and brackets are characters of several bytes; tests try a pair or two", "anchors": ["src/driver/lsp/highlight.rs: document_highlights"]}
