# Formal model of eucalypt in Rocq

## Layout

`rocq/theories/<Area>/` holds, per area of the code:

* `Model.v`  – total, computable Gallina transcriptions of the Rust functions, each citing `/repo` file and lines;
* `Spec.v`   – (where useful) small independent specifications the theorems are stated against;
* `Proofs.v` – lemmas;
* `Props.v`  – the property theorems, followed by `Print Assumptions`, with `Example`s showing that the hypotheses are
  met by a concrete, non-trivial case.

Larger areas have several model, proof and property files (`Lines.v`, `Tarjan.v`, `Compress.v`, `UnifyProps.v`, ...).

## Conventions

* Panics, `unwrap` failures and errors are explicit values (`option` / `result`-like inductives).
* Loops that are not structurally recursive are modelled with fuel; a fuel-exhausted result is an explicit value and
  a theorem states which fuel always suffices (this is the termination proof).
* Machine integers: where wrap-around matters the model uses `N`/`Z` with explicit `mod 2^k`.
* Hash maps are association lists / functions, iteration order is a universally quantified permutation.
* `f64` is modelled only where stated.
* A property which is false of the code gets a theorem named `..._refuted`, with a witness, plus the strongest
  positive theorem found. A theorem that proves part of a property has the suffix `_partial`, and its property has
  status `partial` in `MANIFEST.json`.
* Parts of the program that a property does not depend on (the primitives of the machine, the hash function, the
  iteration order of hash tables, the shunting yard seen from the anaphora code) are universally quantified: section
  variables, discharged when the section closes, never axioms.

## Plan per property

| id | model | how it is proved |
|----|-------|------------------|
| C01 | `Shunt`: the shunting-yard machine of `core/cook/shunt.rs` | uniqueness of precedence trees (spec) and an invariant of the machine |
| C02 | `Shunt` | invariant: the reading order of (output, operators, input) |
| C03 | `Shunt` | measure on (input, operators); linear bound on steps |
| C04 | `Shunt`: `core/cook/fill.rs` | induction on the soup; the filled soup alternates, hence resolves |
| C05 | `Scope`: locally nameless core expressions (`core/binding.rs`, `core/expr.rs`, `core/verify/binding.rs`) | structural induction with a depth; denotations in an arbitrary compositional interpretation |
| C06 | `Scope`: `core/transform/succ.rs` | structural induction |
| C07 | `Simplify/Prune`: `core/simplify/prune.rs` | marking loop invariant = reachability; denotations |
| C08 | `Simplify/Compress`: `core/simplify/compress.rs` | references under renumbering; denotations |
| C09 | `Letrec/Tarjan`, `Letrec`: `core/dependency.rs` | invariant of Tarjan's algorithm for every iteration order; denotations |
| C10 | `Letrec`: `core/reflatten.rs` | denotations, for distinct names; refuted with shadowing |
| C11 | `Fuse`: `core/transform/fuse.rs` | laws of lookup/head/tail as an interpretation; induction on size |
| C12 | `Heap/Lines`: `eval/memory/bump.rs` line maps | induction on the downward scan |
| C13 | `Heap/Lines` | invariant over allocation sequences |
| C14 | `Heap`: heap state, allocator, collector (`heap.rs`, `collect.rs`) | simulation with an unlimited heap over arbitrary mutator programs |
| C15 | `Heap` | block-shape invariant: `try_allocate` never errs |
| C16 | `Heap`: tracing loop | worklist invariant, reachability |
| C17 | `Heap`: evacuation and update | isomorphism of the reachable graph |
| C18 | `Graph`: union-find (`eval/stg/graph.rs`) | forest invariant, equivalence closure |
| C19 | `Graph`: Kahn | in-degree invariant |
| C20 | `Graph`: Kruskal | forest invariant and exchange argument |
| C21 | `Words`: splitmix64 on N mod 2^64 | inverses of xor-shift and odd multiplication |
| C22 | `Basics`: `eval/memory/symbol.rs` | invariant over histories |
| C23 | `Sets`: `eval/memory/set.rs` | canonicity of sorted lists |
| C24 | `Arrays`: `eval/memory/array.rs` | refinement to lists, with sharing |
| C25 | `NdArray` | mixed-radix induction |
| C26 | `Bytecode`: encoder (`eval/bytecode/encode.rs`) and operand reads (`machine.rs`) | round trip by nested induction, byte by byte |
| C27 | `Predecode`: `eval/bytecode/predecode.rs` | worklist invariant; agreement of instruction and byte reads |
| C28 | `Words`: `infotable.rs` | bit arithmetic |
| C29 | `Types`: `core/typecheck/subtype.rs` | finite-unfolding termination argument; coinductive rules; value semantics; transitivity |
| C30 | `Types`: `core/typecheck/unify.rs` | acyclic triangular substitutions, lexicographic termination, most general unifiers |
| C31 | `Basics`: `core/demand.rs` | use-count reading of demands, lifted to folds |
| C32 | `Basics`: `common/serde_sorted.rs` | sorting is invariant under permutation |
| C33 | `Basics`: `common/environment.rs` | induction on frames |
| C34 | `Cook`: `core/anaphora.rs`, `core/cook/*.rs` | substitution of explicit parameters, for every shunting yard |
| C35 | `Words`: `wire_format.rs` key stream | injectivity of a length-prefixed encoding |
| C36 | `Words`: `lob.rs` sizes | arithmetic |
| C37 | `Words`: `stream_prng.rs` | arithmetic on words |
| C38 | `Vecs`: `eval/stg/vec.rs`, `eval/memory/vec.rs` | lists |
| C39 | `Vecs` | permutations, for every way of picking |
| C40 | `Inline`: `core/inline/{tag,reduce}.rs` | denotations; counting of calls |
| C41 | `Machine`: `eval/bytecode/{machine,closure,env_builder,cont}.rs`, `eval/machine/env.rs` | by-name big-step semantics as specification; simulation relation between heaps and closures, both directions |
| C42 | `Machine` | inversion and induction on the by-name semantics |
| C43 | `Machine` | a placeholder reached by the run is a by-name evaluation that needs itself |
| C44 | `Machine` | slot-history invariant: unevaluated, placeholder, value |
| C45 | `Numbers`: `eval/stg/arith.rs` | exact integers; doubles as mantissa and exponent, rounding proved nearest |
| C46 | `Numbers` | laws of division; exactness of floor, ceiling and remainder on doubles |
| C47 | `Numbers`: `num_ord`, `num_eq` | monotone rounding to doubles |
| C48 | `Numbers`: bit operations | bits of integers |
| C49 | `Numbers`: `eval/stg/{list,running}.rs` | permutations, folds |
| C50 | `Stg`: `eval/stg/{block,eq}.rs` | calculation with by-name meanings; induction on how much of the list is seen |
| C51 | `Stg`: `eval/stg/block.rs` | the same, lists of entries |
| C52 | `Stg`: `eval/stg/{boolean,list}.rs` | the same; failures by inversion of the semantics |
| C53 | `Stg`: `eval/stg/wrap.rs` | induction on the signature, sizes of environments |
| C54 | `Stg`: `eval/stg/force.rs` | induction on lists; conversely mutual induction on evaluations |
| C55 | `Stg`: `eval/stg/{meta,constant}.rs` | calculation |
| C56 | `Machine`: the literal-key fast path | the scan follows the list cells; the slots gone through are distinct, so the bound on the scan loses nothing |
| C57 | `Blocks`: MERGE and MERGEWITH of `eval/stg/block.rs` on evaluated values | insertion into an ordered map: lists determined by their keys and entries |
| C58 | `Blocks`: DEEPMERGE | induction on paths and on the right operand |
| C59 | `Blocks`: EQ of `eval/stg/eq.rs` | nested induction on values |
| C60 | `Blocks`: META, RAWMETA of `eval/stg/meta.rs`, `merge-meta` of the prelude | induction on the layers |
| C61 | `Prelude`: `qsort`, `sort-by`, `max-of`… of `lib/prelude.eu` on finite lists, any comparison | induction on the steps; a sorted list with given ties is unique |
| C62 | `Prelude`: `take`, `drop`, `split-at`, `rotate`, the `while`/`until` forms, `nth`, updates | induction on the list, accumulators generalised |
| C63 | `Prelude`: folds, scans, maps, zips | equations with Coq's standard lists |
| C64 | `Prelude`: windows, partitions, `transpose` | induction on the steps; the result is a list being produced that may end, fail or go on |
| C65 | `Prelude`: `discriminate`, `group-by`, consecutive groups, `uniq`, `nub-by`, `split-on` | induction on the list with the groups so far |
| C66 | `Prelude`: `range` and the infinite lists, as a coinductive type | induction on the position |
| C67 | `Updates`: lookups, `update`, `alter`, `set-value`, `merge-at`, `deep-merge-at`, `select`, `dissoc`, maps, `merge-all`, `sort-keys` of `lib/prelude.eu` on the values of `Blocks` | induction on the path; lookups in the rebuilt list of elements |
| C68 | `Updates`: `deep-find`, `deep-find-paths`, `deep-query` and their variants | induction on the value and on the pattern, against paths that fit the pattern |
| C69 | `Updates`: `deep-transform` and `match?` | induction on the position; induction on the pattern against an inductive relation |
| C70 | `Text`: `process_escapes`, the scanning of string literals | one step of the loop against an inductive reading of escapes; induction on the content |
| C71 | `Text`: `shell-escape`, `dq-escape` | induction on the text against POSIX quoting as inductive relations, which are shown to be functions |
| C72 | `Text`: the pattern lexers, the pattern parser, the desugaring of patterns | induction on the template: each part extends a lexed, parsed and desugared rest; totality by induction on the tokens |
| C73 | `Lexer`: the lexer with its memory of the last token, on abstract Unicode tables; the check of quotes | each step takes a piece of the source and looks at one more character; induction on the run |
| C74 | `Lexer`: the conservative mode of the formatter on the tokens | lexing again after a change of whitespace: a step gives the same token if what follows begins alike; columns by induction on the whitespace |
| C75 | `Parser`: the parser with its stack of sinks, on the tokens of `Lexer`; the builder of the tree | the amount of input left bounds the calls; an invariant of the sink of a block (what it holds is a forest over the tokens taken); induction on the amount of input |
| C76 | `Parser`: the same model; `Grammar.v` gives the trees of well-formed sources as inductive predicates, without the parser | one induction on the amount of input for all the functions of the parser: on the tokens of a tree each function takes exactly these and puts this tree; the sink of a block, fed with the pieces of a declaration, splits them as the grammar does. The grammar leaves out what the parser accepts beyond it: brackets that are not closed, several commas between declarations, commas after the metadata of a block, empty bodies |
| C77 | `Validate`: the checks of a parsed tree and the accessors they use, on the trees of `Parser`; the mirrored brackets and the check of dates are parameters | tree induction: no complaint exactly if every node that is looked at is in order; on trees of the grammar most of that holds, by an invariant of the nodes reached. Refuted for unclosed lists and for content that is set aside |
| C78 | `Optimise`: the pass over compiled code that removes definitions that only rename, on the code of `Bytecode` and with the call-by-name meaning of `Machine` | a relation between code, environments and values that follows removed definitions; simulation in both directions by mutual induction on derivations; the pass yields related code by induction on code. Refuted for cases on a written constructor, for cases that only check, and for literal lookups |
| C79 | `Compile`: the compiler from desugared expressions to code, its deferred references and binders as functions of the context, with the code of `Bytecode` and the meaning of `Machine`; beside it a direct reading of an expression that delays everything | compiled code *reads* an expression: an inductive relation that every compiled expression satisfies, by induction on expressions with an invariant on binders; relation of code that reads an expression with its direct reading is a simulation both ways, by induction on evaluation. The converse direction is refuted for definitions and table entries annotated strict |
| C80 | `Demand`: the demand analysis, its loops with fuel, environments as association lists; beside it an inductive account of which variables an expression may ask for | induction on expressions with a record of what an answer satisfies: environment entries are exactly the uses; variables asked for in several places are used any number of times (`C80_overused`, `C80_signatures_recorded`); breadth-first search and the two fixed points by invariants and a bounded measure (so the fuel suffices); soundness composes C79 with the fact that only annotations change. That annotations never lose a result is refuted |
| C81 | `Parallel`: the codec of par-map on values whose parts are computations described by what forcing them does, with the machine's one register for stripped metadata; in `Spec.v` the data a value stands for, without bytes | mutual induction on the encoder's counter (whatever is written is the image of some data), on the decoder over such images with any bytes after them, and on the shape of values; counters suffice by a size measure. That all metadata crosses is refuted |
| C82 | `Parallel`: arena, chunks, worker loop, the parent's collection; workers run in any interleaving of their writes, or fail in any way and leave any memory | at an address of one segment only that worker's writes matter (induction on the interleaving); records laid out one after another are read back; chunks concatenate to the list |
| C83 | `Parallel`: the segment reader on arbitrary memory, `chunk_bounds`, `join_all` with the kill and wait calls it makes | invariants of the reader's cursor; arithmetic; the first failure splits the list of endings |
| C84 | `Imports`: reading a specifier on texts as lists of characters; white space, URLs and extensions are parameters | the first separator is where it was written (induction on the text); the panics of byte slicing are explicit |
| C85 | `Imports`: the loader with its cache keyed by the written path, its library path and its graph, on a file system as a function; in `Spec.v` the documented order of search | petgraph's cycle check by reachability, proved by cutting walks short; an invariant of the loader (what is found is there, edges are real, no cycle) carried through nested loads; the files being loaded form a chain in an acyclic graph, which bounds the depth |
| C86 | `Imports`: the import guard and the nesting of imported files as lets; expressions are known by the names they refer to | whatever the guard has noted is bound in the scope at hand, except for files still being translated, which acyclic imports cannot reach; induction on the nesting |
| C87 | `Export`: RENDER and the EMIT intrinsics as a function from evaluated values to actions, the accumulator as a stack machine consuming them; in `Spec.v` a relation between values and documents with no events in it | induction on values: what a value emits feeds its document to whatever is on top of the stack |
| C88 | `Export`, all values | emitted actions are balanced: they leave the stack as deep as it was and the top of the same kind, and write nothing |
| C89 | `Export`: the checks before each event; in `Spec.v` what a format cannot carry | the same induction shows or refuses; what shows is fit (mutual induction on the relation) |
| C90 | `Export`, metadata as layers | from C87 by inversion |
| C91 | `Export`: the maps of the serialisers (sorted, in place, moved to the end) | invariants of insertion: each key once, with its last value |
| C92 | `Printf`: the parser of specifiers and Rust's padding; in `Spec.v` specifiers as written and fields as texts with only padding added | the parser undoes the spelling (induction on flags and digits), and whatever it accepts is a spelling followed by something |
| C93 | `Printf`: digits in a base, most significant first | induction on the digits with their value; two's complement by `mod` |
| C94 | `Printf`, doubles as in `Numbers`, Rust's printing of them a parameter | from the exactness of integers up to 2^53 as doubles (`Numbers`) |
| C95 | `Testing`: plans, evidence, the verification part of `lib/test.eu` and the loop over files; in `Spec.v` what is run, what is wanted of it and when it holds | the evidence table holds one entry per run (induction over the runs, entries being replaced by name), the verdict is a conjunction over it |
| C96 | `Testing`: the choice of targets and formats | membership; the verdict depends on members only |
| C97 | `Testing`: the reader of sidecar files; in `Spec.v` the documented lines and what each asks for | induction over the lines, with trimming and unquoting undoing the spelling |
| C98 | `Yaml`: the receiver of YAML events as a stack machine, merging, closing of references; in `Spec.v` document trees, the value of a tree, the entries of a mapping with merges | induction over the tree: in a value position the events of a tree feed its value; adding an item to a mapping is one step of the machine |
| C99 | `Yaml`: the patterns for plain scalars and the reading of numbers; in `Spec.v` the grammars of the core schema and of JSON numbers | the patterns accept only the grammars (splitting off signs and runs of digits); JSON numbers are accepted by both |
| C100 | `Yaml`: the `data_only` flag through the YAML, TOML, EDN and JSON Lines importers | invariant of the stack machine; induction over TOML and EDN values |
| C101 | `Io`: the driver's loop with its stash, the actions, the combinators of the prelude; programs are coinductive trees; in `Spec.v` a step-by-step semantics | soundness by induction on the bound of the loop, completeness by induction on the semantics with monotonicity in the bound; the laws and combinators from the semantics |
| C102 | `Io`: rendering of fields, the choice of action, running a process; in `Spec.v` what is reported of a process and what options ask for | splitting undoes joining; reading of decimal digits; the driver on one action |
| C103 | `Io`: `check` and `checked` of the prelude | from the semantics and its determinism |
| C104 | `Lsp`: the line index, the conversions both ways; in `Spec.v` the place after a text, counted character by character | splitting a text at its last newline; the starts at or before an offset are those of the text before it |
| C105 | `Lsp`: the token at the cursor, edits and locations; in `Spec.v` what an editor makes of edits, and which tokens change | induction over the tokens with the text already passed |
| C106 | `Lookup`: turning an expression into a function of a block; the meanings of `Scope/Spec.v`, and in `Lookup/Spec.v` names looked up with a fallback | induction over expressions for every interpretation, with the lemmas on closing and shifting |
| C107 | `Lookup`: replacing the body of nested lets; in `Spec.v` which declarations are internal and what is seen under them | induction over nested lets for every interpretation |
| C108 | `Xml`: the importer's loop over the events of the XML reader; in `Spec.v` trees, how they are written as events, and their data | mutual induction over the data of trees |
| C109 | `Streams`: reading and streaming text, rows of CSV; in `Spec.v` texts as lines with their endings, and values of columns | induction over the lines and columns |
| C110 | `Streams`: the table of streams; in `Spec.v` one stream by itself | induction over histories, with the invariant that handles are below the next one |
| C111 | `Outline`: the loop of relative semantic tokens, the descent for selections and the walk for foldings, over the texts and positions of `Lsp`; in `Spec.v` the protocol's decoding of tokens and the places of nodes. Refuted: that tokens lie within a line | induction on tokens and on trees |
| C112 | `Reformat`: the two formatting requests and their own conversions of positions; in `Spec.v` which declarations overlap a range and the source afterwards, with the edits of `Lsp` | induction over the parts of the source |
| C113 | `Brackets`: the highlights of bracket pairs over the tokens of the tree with their parents; in `Spec.v` pairs, and tokens before and after the cursor | induction over the tokens |

## What was found

Claims which the code, as modelled, does not satisfy. Each is a theorem with a witness, named here; the positive
theorem beside it says when the claim does hold.

* `C02_order_refuted`: `x + y * neg b` with a prefix operator looser than its left neighbour resolves, silently, to
  `(x * y) + (neg b)`.
* `C03_no_panic_refuted`: an operator that binds tighter than a call makes the shunting yard panic on `f(x) op y`.
* `C07_self_fallback_refuted`: a lookup that falls back to the block it looks into loses the block's other members.
* `C10_shadowing_refuted`: joining directly nested lets that bind the same name changes what the name means.
* `C23_zero_refuted`, `C23_large_integers_refuted`: `+0.0` and `-0.0` are one element whose rendering depends on the
  order of insertion; integers beyond 2^53 may be identified.
* `C24_clone_is_value_refuted`: pushing onto a shortened clone overwrites an element of the original (announced in
  the code's comment).
* `C25_neighbours_rank_refuted`: offsets of the wrong rank are joined together instead of skipped.
* `C26_args_refuted`, `C26_wide_table_refuted`, `C26_location_refuted`: an application of 256 arguments decodes as one
  of none and nothing rejects it; a case on tags 0 and 255 loses its branches; a function form without parameters
  loses its location.
* `C27_annotation_refuted`: a literal lookup that carries no annotation gets the enclosing one only when pre-decoded.
* `C29_transitive_refuted`, `C29_optional_refuted`, `C29_contractive_refuted`, `C29_sound_refuted`,
  `C29_lens_refuted`, `C29_widen_refuted`: subtyping is not transitive (record, smaller record, dictionary; optional
  fields), accepts anything through `mu x. x`, and widening a literal in an argument position narrows a function.
* `C30_terminates_refuted`, `C30_acyclic_refuted`, `C30_fresh_refuted`, `C30_own_name_refuted`: unifying two copies of
  a recursive type whose variables have different names does not end; two records with distinct rows give a cyclic
  substitution; the variables made up for quantified ones may already be in use.
* `C31_lub_idempotent_refuted`: the join of an unknown demand with itself is not unknown.
* `C34_*_refuted`: made-up parameter names capture variables of the program; `"{-1}"` in a string crashes; an anaphor
  that is a whole declaration leaks into the next function; anaphora repeated in a block's body are left free;
  numbers beyond the integer type are read as unnumbered; numbered and unnumbered anaphora compare inconsistently.
* `C37_int_large_refuted`, `C37_split_distinct_refuted`: random integers below a bound over 2^63 may be negative; a
  split may return the same stream twice.
* `C38_nth_negative_refuted`: a negative index reads the first element.
* `C39_shuffle_empty_refuted`: shuffling the empty vector panics.
* `C40_distribute_refuted`, `C40_metadata_refuted`: distributing a function under another binder may change which
  variable it refers to, and drops the function's metadata.
* `C41_function_operand_refuted`: a fused operator given a function may follow the function's body outside the function
  and compute with an unrelated number.
* `C41_copied_placeholder_refuted`, `C43_loop_error_refuted`: a constructor's field that is not in the constructor's own
  frame is copied for a case branch; copied while it is under evaluation, the placeholder stays in the copy and a
  program with a value is reported as an infinite loop.
* `C41_wide_partial_application_refuted`: partial applications that hold or await more than 16 arguments fail.
* `C42_block_refuted`: a block applied to two arguments at once is not the block applied to one and then the other.
* `C44_copied_expression_refuted`: a copied unevaluated expression is evaluated again.
* `C44_looked_up_refuted`: `b.x` evaluates the expression found without recording its value, so a second `b.x`
  evaluates it again.
* `C56_literal_order_refuted`: the fast path of `b.x` passes over entries that are not evaluated pairs, so with
  two entries for one key the value depends on what has been evaluated before.
* `C45_mixed_refuted`: a negative integer added to one of 2^63 or more goes through doubles: 2^64-1 + -1 is wrong.
* `C45_avoidable_error_refuted`, `C45_negative_difference_refuted`: 2^63-1 + 1 and 2^63 - (2^63+1) are range errors
  although the results can be represented.
* `C46_lowest_refuted`: the lowest word `mod` -1 is a range error although it is 0.
* `C46_float_mod_refuted`, `C46_float_quotient_refuted`, `C46_mixed_refuted`: `-1e-20 mod 1` is 1; the double 2^63
  divided by 1 is 2^63-1; the law of division fails when a negative integer meets one of 2^63 or more.
* `C47_at_most_transitive_refuted`, `C47_equal_transitive_refuted`: 2^53+1, the double 2^53 and 2^53 compare equal in
  turn, but the first and the last differ.
* `C48_double_refuted`, `C48_shift_overflow_refuted`: bit operations take the double 2^63 for 2^63-1; `shl(1,63)` is
  negative, without an error.
* `C49_sort_changes_refuted`, `C49_running_sum_refuted`: sorting changes integers beyond 2^53; a running sum that
  overflows comes back as 0.
* `C57_duplicates_refuted`: with a key given twice, a lookup finds the first entry and a merge keeps the last, so
  merging with the empty block changes what is looked up.
* `C58_associative_refuted`: `{x: {p: 1}} << {x: 5} << {x: {q: 2}}` depends on the bracketing.
* `C58_replaced_metadata_refuted`: in a deep merge, a value that replaces another carries the metadata of the value
  replaced.
* `C59_transitive_refuted`, `C59_order_refuted`: equality is not transitive (doubles; key-value lists with more than
  two elements, which equal a pair whatever the rest is); equal contents in another order are not equal.
* `C60_deep_refuted`, `C60_merge_loses_refuted`: the comment on META says layers are deep-merged, they are merged; a
  merge of two blocks keeps the metadata of one only.
* `C61_at_most_refuted`: sorting with `<=` in place of `<` does not keep ties.
* `C62_drop_refuted`, `C62_rotate_refuted`, `C62_negative_refuted`: `drop` past the end is an error although `take` past
  the end is not; `rotate` by more than the length does nothing; a negative count takes everything.
* `C64_window_gap_refuted`, `C64_window_zero_refuted`, `C64_transpose_ragged_refuted`: `window(1, 2, [1, 2, 3])` ends in
  an error because the last step goes past the end (`window-all` guards against this, `window` does not); a step of zero
  never ends; `transpose` of no rows or a short row is an error and a long row loses its end.
* `C66_range_refuted`: `range(5, 3)` is not empty but infinite.
* `C68_list_paths_refuted`: a path reported by `deep-find-paths` through a list cannot be followed by `lookup-path`: the place in the list is not part of it.
* `C68_query_once_refuted`: a pattern with `**` after a name can report the same place twice (`a.**.b` on `a.a.b`), since the pattern also gets a `**` at the front.
* `C68_query_leaves_refuted`: `**` at the end of a pattern stands for blocks only; the values under them are left out.
* `C69_symmetric_refuted`: `match?` is open, so it is not symmetric.
* `C71_dq_escape_refuted`: `str.dq-escape` turns a backslash into four, so the shell reads two.
* `C72_brace_after_hole_refuted`: in plain and raw strings `}}` after a hole is lost: `"{{{x}}}"` has no last brace. In a hole `}}` is an escaped brace, which the parser passes over.
* `C72_cstring_brace_refuted`, `C72_cstring_backslash_refuted`: in a c-string with holes, a text chunk that begins with a backslash is misread: `c"\{{x}"` is an error, `c"\\{x}"` has no hole.
* `C72_lossless_refuted`: whitespace in a hole is left out of the tokens, so the tree does not have the text of the source and later positions are off.
* `C72_format_dropped`: a format that begins with a dot, `"{x:.2f}"`, is dropped without a word.
* `C73_quotes_refuted`: unterminated quotations that are not reported: `:'a` (the check looks for the quote at the start, where the colon is), `"` or `'` alone at the end of the file, `c"a\"` (the last quote is escaped).
* `C73_example_operator`, `C73_example_call`: an operator goes on over `#`, so `+# no comment` is the operator `+#` and three names; a quoted identifier cannot be called, `'f'(x)` is a juxtaposition.
* `C74_holes_refuted`: formatting `"{x y}"` gives `"{xy}"`. `C74_returns_refuted`: a carriage return between two names is deleted and they become one. `C74_unclosed_refuted`: each formatting adds a line end inside an unclosed symbol.
* `C74_trailing_refuted`, `C74_line_ends_refuted`: against the documentation of the formatter, trailing whitespace stays and the carriage return at the end of a comment stays.
* `C75_panics_refuted`: the parser panics on `a: :`, `a:+: 1`, `a:(b): 1`, on a backtick directly after a colon, and on a Unicode bracket that is not closed at the end of the source. `C75_places_refuted`: whitespace in the hole of a string displaces the place of a later error.
* `C77_unclosed_refuted`: `x: [1, 2` at the end of a source is accepted as a closed list (nothing checks the closing square bracket; parentheses and braces are checked). `C77_dropped_refuted`: words after a comma in a block of Unicode brackets, or in the block pattern of a parameter (`f({a: 1, b c}): 1`), are set aside in the tree and dropped without an error; in a block of braces they are reported.
* `C78_known_refuted`: a case on a constructor written in place has its fields renumbered twice, so under a removed definition the branch sees the wrong variable (`let a = 10; b = 20 in let c = b in case Box c of Box x -> x` gives 10). `C78_checked_refuted`: a case with one branch, for a constructor without fields, and no fallback becomes a force, so `case true of false -> 5` gives 5 instead of failing. `C78_lookup_refuted`: a literal lookup is not renumbered at all, so under a removed definition its variables point outside the scope. The compiler emits no case expression itself and puts a kept definition directly around each lookup, so these are faults of the pass, not seen in compiled sources; hand-written code in `eval/stg/*.rs` does not go through it.
* `C79_strict_refuted`, `C79_table_refuted`: a definition or argument annotated strict is evaluated ahead of its use, so a program that never uses its value fails (or runs for ever) if that value does: `let x = [] + 1 in [x, x]`, or a call of a function whose table entry is strict in an argument it may ignore. Such entries exist: the built-in table (`core/analyse_demand.rs` 147-272, always loaded, `compiler.rs` 1625-1641) has `head-or` and `tail-or` strict in the default, so `[1] head-or(panic("empty"))` fails.
* `C80_strict_refuted`, `C80_function_refuted`, `C80_names_refuted`: the analysis marks definitions strict that are not. Every variable it meets counts as asked for, also as an element of a list, a value of a block, metadata, the fallback of a lookup, or inside a function that may never be called; so `let x = [] + 1 in [x, x]` and `let x = [] + 1 in y -> x + x` fail although nothing asks for `x`. Signatures are kept by name alone, so a call of a function is compiled with the signature of another of the same name elsewhere: in `let f(x, y) = y + y; g = let f(x, y) = x in f(1, [] + 1) in g` the argument the inner `f` ignores is evaluated. `src/core/demand.rs` says that annotations only affect performance. Marks of at most one use also ignore that a function using a definition may be called many times: the definition is then evaluated each time (sharing, not a result, is lost; not formalised).
* `C81_layers_refuted`: of two layers of metadata on an element of a `par-map` only the inner one survives; `map` keeps both (`meta` merges them). `null` is such a value as soon as it is annotated, its definition in the prelude being annotated already: an element `null // {a: 1}` loses `{a: 1}`.
* `C81_computed_refuted`, `C81_stray_refuted`: metadata on a computation that forces another value on its way is lost, because entering the inner run clears the register that leaving it does not restore; and the metadata of the value forced last is put on the result, to which it does not belong.
* `C81_block_refuted`: `par-map` refuses an element that is a block made from a list of keys and values (`block`, `zip-kv`, `map-values` and others) with the error `non-scalar block key`, although `map` accepts it.
* `C81_long_refuted`: lengths are cast to 32 bits without a check, so a string of 4 GiB comes back empty.
* `C84_path_refuted`: an import of `dir@v2/x.eu` is read as format `dir` of the file `v2/x.eu`, and a path with `=` is read as a name and the rest. Written in full, `name=eu@path`, every path works.
* `C84_total_refuted`, `C84_bracket_refuted`: the import `"["`, or one that starts with `[` and ends in a character of several bytes, ends the process with a slicing panic; `[abc` without a closing bracket is read as `ab`.
* `C85_nearest_refuted`, `C85_own_refuted`: the guide says that an import is looked for in the importing file's directory first and that the library path is then not consulted. The code puts that directory last in the list it searches, after the library path and after the directories of all outer importers, and it keeps what it found under the path as written. So `lib/a.eu` importing `b.eu` gets `./b.eu` if there is one, and of two directories with a `helper.eu` each, both users get the first one loaded.
* `C85_false_cycle_refuted`: for the same reason `main.eu` importing `lib/a.eu` importing `lib/main.eu` (written `main.eu`) is reported as a cycle.
* `C86_clash_refuted`: an import that was seen before is skipped, and the names are taken from the enclosing lets; where a file in between declares the same name, the importing file gets that one, from a file it never imports.
* `C86_scoped_refuted`, `C86_alias_refuted`: the import guard forgets in which declaration an import was seen. If declaration `x` imports a file that imports `c.eu`, a later declaration `y` importing `c.eu` finds its names unbound; the same file imported under two names by two declarations is unbound in the second.
* `C87_lost_refuted`, `C87_leaked_refuted`: an entry made from a list (`block`, and so everything that goes through `elements`) is rendered by rendering the list's elements. If the value is hidden, its key is still emitted, takes the next entry's key as value, and shifts all that follow; with an odd number of scalars the whole block is dropped without a word. `block([[:a, 1 // {export: :suppress}], [:b, "x"]])` is written as `{}`.
* `C87_function_refuted`: a function is left out of a block, but makes writing the same block fail after `elements` and `block`. `C87_infinite_refuted`: infinities and NaN in arrays, sets and vecs are written as 0.
* `C90_plain_refuted`, `C90_layer_refuted`: tags are dropped on booleans, nulls, sets, vecs and arrays, when another layer of metadata is put on top, and when given as a symbol.
* `C91_first_refuted`: `block([[:a, 1], [:a, 2]]).a` is 1 but JSON, YAML and TOML output say 2. (Read but not formalised: YAML writes the float 1.0 as `1`; eucalypt output writes keys and symbols unquoted and braces in strings unescaped, so that it does not always read back.)
* `C92_rest_refuted`: whatever follows a specifier is dropped: `5 str.fmt("%d items")` is "5". `C92_constants_refuted`: booleans and null ignore the format, even one that is not a specifier, so `"{flag:%6s}"` does not line up. `C92_long_refuted`: `write_str` passes the length of the text as a precision, and Rust since 1.87 panics on precisions above 65535, so formatting a longer text panics.
* `C93_alternate_refuted`: `%#x`, documented to write `0x`, writes no prefix.
* `C94_exact_refuted`: every format but `x`, `X` and `o` goes through a double, so `%d` of 9007199254740993 writes 9007199254740992. `C94_letters_refuted`: `d i u f F g G a A s c` all do the same to a number, so `%d` of 1.5 writes 1.5 and `%g` never uses scientific notation.
* `C95_skip_refuted`: a test skipped because it needs `--allow-io`, which the code says must not penalise CI, has no result file, so the report that reads the results of all plans fails and `eu test` with it. `C95_none_refuted`: in a directory without tests the report panics. `C95_interrupted_refuted`: Ctrl-C makes the evaluation end with code 130, which no expectation looks at; if nothing was printed, the output reads back as an empty block, all of whose entries are true, so the test passes. `C95_names_refuted`: the evidence is a block with an entry per target name and format, so of two targets with the same name (one imported, say) the later replaces the earlier and a failing validation is lost.
* `C96_order_refuted`: targets are run by name, and the name is looked up in a hash set with a random order: of two targets with the same name either may be run, so the verdict can change from one run to the next.
* `C97_block_refuted`: sidecars are called YAML but read line by line: `stderr: |` gives the pattern `|`, which matches everything. `C97_space_refuted`: `exit : 3` is skipped like any line not understood, and the exit code is then not checked.
* `C98_merge_scope_refuted`: the entries of a merged mapping are taken out of the scope they were closed in, so that in `base: &b {x: 1, y: !eu x}`, `derived: {<<: *b}` the `x` of `derived.y` refers to a scope two levels out, beyond the document. `C98_quoted_refuted`: the quoted key `"<<"` merges as well. `C98_key_anchor_refuted`: an anchor on a key is not kept, and an alias of it is an error.
* `C99_true_refuted`, `C99_false_refuted`: the pattern `^TRUE|FALSE$` is anchored at one end of each word, so `TRUETYPE` and `NOTFALSE` are read as the boolean false. `C99_nan_refuted`: for the same reason (`^\.nan|\.NaN|\.NAN$`) a plain scalar such as `.nanorc` makes the import fail. `C99_numbers_refuted`: numbers of the core schema that JSON lacks (`0o7`, `0x1F`, `+1`, `007`, `.5`, `.inf`) are recognised and then refused.
* `C100_jsonl_refuted`: `parse-as(:jsonl)` evaluates embedded code: the JSON Lines importer reads each line as YAML with code enabled, so the line `!eu 42` becomes an expression, although the prelude documents that this never happens.
* `C102_computed_arguments_refuted`: arguments in a part of the list that is not evaluated yet are dropped without an error: `list_element_values` stops at the first tail that is not already a cons cell, so `io.exec` of a computed list runs the command with a prefix of its arguments.
* `C102_empty_argument_refuted`: `io.exec(["f", ""])` runs `f` without arguments, since the joined text is empty.
* `C102_other_arguments_refuted`: arguments that are lists or blocks are left out, and the others move up.
* `C102_nul_refuted`: an argument containing NUL becomes two arguments; the operating system would have refused it.
* `C102_null_input_refuted`: `io.shell-with{stdin: "null"}` gives the command no input at all, although `null` is a JSON document.
* `C102_time_refuted`: a time limit that is not a whole number (0.5, or a negative one) is silently replaced by 30 seconds.
* `C102_killed_refuted`: a command that exceeds its time is reported but left running, although the guide says it is killed. Not formalised: the input is written before any output is read, outside the time limit, so a command that answers while it reads can block for ever.
* `C104_return_refuted`: the protocol also ends lines at a lone carriage return; the server counts line feeds only, so all positions after one are a line off.
* `C105_capture_refuted`: renaming to a name that is already in use is not refused, so that two definitions become one. All identifiers of the name are changed, in whatever scope and also as keys of unrelated blocks.
* `C105_unchecked_refuted`: the new name is not checked to be a name: renaming `x` to `a b` is done, and breaks the source.
* `C106_operators_refuted`: an operator declared in a block is used by an expression after the dot when the block is written out there, and not seen when the block is computed.
* `C106_bound_refuted`: `dynamise` shifts references to outer scopes twice, once with `succ` and once when the lambda is closed, so that the fallback of such a reference is the wrong binding. Desugaring calls it when outer references are still free names, where this does not show; the unit test expects the doubled shift.
* `C107_collision_refuted`: if a unit imports one that declares `helper` publicly and then one with its own internal `helper`, it cannot use the public one: the reference is renamed to `__eu_internal:helper` and is an error. The same holds for names of the prelude.
* `C108_end_refuted`: the XML importer ignores the end of the input. A document without an element, or whose root element is not closed, is read for ever instead of being an error (the crate gives the end again and again).
* `C108_cdata_refuted`: the text of CDATA sections is ignored.
* `C108_prefix_refuted`: attributes are kept by local name, so that of `p:k` and `q:k` only the last is read.
* `C109_return_refuted`: a text stream removes every carriage return at the end of a line, also where no newline follows; importing the same file removes one, before a newline.
* `C109_order_refuted`: the rows of a CSV stream have their columns sorted by name, because they pass through a sorted map; importing the same file keeps their order. The same holds for the keys of objects in JSON Lines streams.
* `C111_lines_refuted`: a token over several lines (a string, say) is sent to the editor as one semantic token whose length counts the newlines; the protocol lets clients refuse such tokens (src/driver/lsp/semantic.rs:85-108).
* `C112_cursor_refuted`: formatting an empty range at the start of a declaration does nothing, although within the declaration, and just after its last character where a newline follows, it formats it (src/driver/lsp/formatting.rs:72-75).
* `C112_agree_refuted`: a position within a surrogate pair is the end of the line for formatting, and the next character for the other requests.
* `C113_after_refuted`: with the cursor just after a bracket nothing is highlighted, unless the source ends there: the token after the cursor always wins, so the fallback to the one before it never runs (src/driver/lsp/highlight.rs:27-35).
* `C52_cond`: the default of a `cond` loses its metadata, while the value of a clause keeps it.

Observed while reading, without a theorem: the emergency sweep of the heap is unsafe but cannot be reached; the
defragmenting sweep never evacuates; `ARRAY.SLICE` treats a negative index as 0; prefix anaphora are ordered as text in
code nobody calls; `apply1`/`apply2` thunks are documented as updatable and are not.

## What testing with wrong programs left open

`seeded/LOG.jsonl` has the edits that were tried. Among the last ones:

* No edits were tried in `Outline`, `Reformat` and `Brackets` (C111 to C113), and 7 of 32 planned in `Streams` were not.
* `Streams`, `text_ltb`, order of prefixes: no theorem failed. C109 does not say in which order a name and a longer name
  that begins with it stand among the sorted columns.
* `Xml`, `insert`, first attribute kept: no theorem failed. C108 says nothing of attributes with the same local name
  except that one of them is lost; that the last one stays is read from the code.

## Trusted base

* The Coq 8.16.1 kernel (`coqc`, and `coqchk` in `vcheck`). No kernel check is switched off.
* No axioms: `Print Assumptions` answers "Closed under the global context" for every theorem named in `MANIFEST.json`
  (each `Props` file ends with these commands). The checker lists seven axioms of `Coq.ssr.ssrunder`, a standard
  library module that other libraries load; no theorem here depends on them.
* The faithfulness of the transcription: that each definition in a `Model` file does what the lines it cites do. The
  build proves nothing about the Rust compiler or about the code that is not transcribed.
* The specifications: `Spec` files, and definitions in `Props` files that say what is being claimed.

### Modelled

| area | code |
|------|------|
| `Arrays` | `eval/memory/array.rs` |
| `Basics` | `core/demand.rs`, `eval/memory/symbol.rs`, `common/serde_sorted.rs`, `common/environment.rs` |
| `Blocks` | MERGE, MERGEWITH, DEEPMERGE of `eval/stg/block.rs`, EQ of `eq.rs`, META of `meta.rs`, on values evaluated throughout (no laziness, no failures inside values; dates, sets, arrays and functions left out) |
| `Prelude` | the list library of `lib/prelude.eu` (folds to sorting, lines 1385-1737, and 911-953) on finite evaluated lists, with errors for the head and tail of nothing; functions passed as arguments always return |
| `Updates` | the block library of `lib/prelude.eu` (lines 426-575, 1757-1925) on values evaluated throughout; functions passed as arguments return or fail; the patterns of `deep-query` are already split into segments |
| `Text` | `escape.rs`; the loop of `dquote` and the tests for braces in `lex.rs`; `string_lex.rs`; `parse_string_pattern` of `parse.rs`; `desugar_rowan_string_pattern` up to the expression it builds; `shell-escape` and `dq-escape`. Strings are lists of code points and positions count characters |
| `Lexer` | `syntax/rowan/{lex,kind,brackets}.rs`; the checks of quotes in `validate.rs`; the conservative mode of `syntax/export/format.rs`. Positions are counted in characters; what Unicode says of characters beyond ASCII is a parameter |
| `Parser` | `syntax/rowan/parse.rs`; positions are counted in characters; a token pushed back is a token looked at and not taken; the stack of sinks is the nesting of the calls; `rowan`'s tree builder is a stack of unfinished nodes |
| `Validate` | `syntax/rowan/validate.rs`, the accessors of `ast.rs` it uses, `close_for_open` of `brackets.rs`; errors carry no ranges and no text; the Unicode mirror table and the date parser are parameters |
| `Optimise` | `eval/stg/optimiser.rs` whole; `DataConstructor` tags and arities of `eval/stg/tags.rs`. The recursive call on the let built for a known constructor is unfolded by its let rule |
| `Compile` | `eval/stg/compiler.rs`: contexts, binders, deferred syntax and references, `compile_body`, `compile_binding` and what they call, `compile` with its three kinds of rendering. Literals become natives by functions that are parameters; the tables of intrinsics, prelude globals and signatures are parameters; source positions are one constant |
| `Demand` | `core/analyse_demand.rs` except `print_demands` and the built-in tables, which are parameters; the demands of `core/demand.rs` are those of `Basics`. Signatures keyed by addresses of function bodies are represented by what such a lookup finds |
| `Parallel` | `eval/stg/parallel/serialise.rs`, `arena.rs`, `driver.rs` from `decide_workers` on, `join_all` and `kill_and_reap` of `fork.rs`; of `eval/bytecode/machine.rs` what `force` does to the register of stripped metadata. Computations are represented by what forcing them does; chrono and the UTF-8 check are parameters. Not modelled: roots and collections during decoding, the detection of a process that may not fork, `Vec::with_capacity` on a corrupt count |
| `Imports` | `syntax/input.rs` (`Input::from_str`, `Locator::from`, `infer_format`, `Display` for files); of `driver/source.rs` `load`, `load_tree_as`, `load_simple`, `load_source`, `read_fs_input`, `find_source_dir` for files; `ImportGraph` of `syntax/import.rs`; `translate_import` of `core/desugar/desugarer.rs` with the import handling of `rowan_ast.rs` and `rebody`. Not modelled: git imports, streams, pseudo-blocks, buffers, absolute paths, the scraping of imports from the tree, the choice of content by format, internal exports, imports in nested blocks; petgraph's toposort is replaced by its meaning |
| `Export` | `eval/stg/render.rs` (RENDER, RENDER_DOC, RENDER_ITEMS, RENDER_BLOCK_ITEMS, RENDER_KV, SUPPRESSES, TAG, SATURATED); `eval/stg/emit.rs`; `export/table.rs`; of `export/{json,yaml,toml,eu}.rs` everything up to the value handed to the serialiser; `unrepresentable_key` of `export/mod.rs`; the stream brackets of `driver/eval.rs` | serialisers; EDN, text and HTML; evaluation during rendering; failures of the output stream; the maps of serde_json, yaml-rust and toml are modelled after their documentation |
| `Printf` | `eval/stg/printf.rs` and FMT of `eval/stg/string.rs`. Rust's padding and integer formatting follow its documentation; its printing of doubles is a parameter, and so is the limit of format arguments (65535 since Rust 1.87). Dates and the natives that are always refused are left out |
| `Testing` | `core/analyse/testplan.rs` (the choice of targets; sidecar files), `driver/tester.rs` (evidence, validation, summary, exit code), `lib/test.eu` (validation and verification). Evaluating a target, reading output back, validations defined by the test file and the regular expression engine are parameters; the HTML report is represented by whether its inputs exist |
| `Yaml` | `import/yaml.rs` (the receiver, scalars, merging), `import/toml.rs`, `import/edn.rs`, `import/jsonl.rs`, the choice in `import/mod.rs`, closing of references in `core/expr.rs`. The parsing libraries, the recognition of timestamps and the eucalypt parser are parameters; csv, xml and text importers are not modelled here |
| `Io` | `driver/bytecode_io_run.rs` (`io_run`, `evaluate_spec_block`), `driver/io_common.rs`, the list and scalar accessors of `eval/bytecode/machine.rs` used there, `io` and `monad` of `lib/prelude.eu`. The machine is represented by what it yields, the operating system is a parameter; tracing, rendering of the final value and Windows are not modelled |
| `Lsp` | `LineIndex` of `driver/lsp/diagnostics.rs`, `position_to_offset`, `find_identifier_at`, `driver/lsp/references.rs`, `driver/lsp/rename.rs`, `byte_range_to_lsp_range` of `driver/lsp/alias_index.rs`. The tree is the list of its tokens; the binary search is what it finds; the rest of the server is not modelled |
| `Lookup` | `core/transform/dynamise.rs`; `rebody`, `rebody_int`, `prepare_capture_vars`, `has_internal_export`, `collect_internal_binding_names` and `mask_internal_free_vars` of `core/expr.rs`; the static route in `core/desugar/rowan_ast.rs`. The character class of normal identifiers is a variable; the choice between the routes is not modelled |
| `Xml` | `import/xml.rs`. The crate quick_xml is the list of its events; decoding, normalising of attribute values and positions are not modelled |
| `Streams` | `import/text.rs`, `import/csv.rs`, `TextProducer` and `CsvProducer` of `import/stream.rs`, `eval/stg/stream.rs`. The crate csv is the records it gives; a stream in the table is the list of what it has yet to give; errors of reading files are not modelled for text |
| `Outline` | `semantic_tokens_full` (src/driver/lsp/semantic.rs:65-117), `selection_range_at`, `build_selection_chain` (src/driver/lsp/selection.rs:30-58), `collect_folding_ranges` (src/driver/lsp/folding.rs:20-46). How tokens are classified and the kinds of foldings are not modelled; offsets of 32 bits are unbounded |
| `Reformat` | `driver/lsp/formatting.rs` without `options_to_config`. What the formatter makes of the document and of each declaration, and whether the source has errors, are given |
| `Brackets` | `driver/lsp/highlight.rs`. The tree is its tokens, each with its parent if that is a bracket expression or block |
| `Bytecode` | `eval/bytecode/{encode,program,opcode}.rs`, operand reads of `eval/bytecode/machine.rs`, `eval/stg/syntax.rs` |
| `Cook` | `core/anaphora.rs`, `core/cook/{mod,fill,fixity}.rs` |
| `Fuse` | `core/transform/fuse.rs` |
| `Graph` | `eval/stg/graph.rs` |
| `Heap` | `eval/memory/{heap,bump,collect,header}.rs` |
| `Inline` | `core/inline/{tag,reduce}.rs` |
| `Letrec` | `core/{dependency,reflatten}.rs` |
| `Machine` | step function and environments of `eval/bytecode/{machine,closure,env_builder,cont}.rs`, `eval/machine/env.rs` |
| `NdArray` | `eval/stg/array.rs`, `eval/memory/ndarray.rs` |
| `Numbers` | `eval/stg/arith.rs` (other than transcendental functions and parsing), `num_eq` of `eq.rs`, number lists of `list.rs` and `running.rs`; `serde_json::Number` and IEEE doubles by `SpecFloat` of the standard library |
| `Predecode` | `eval/bytecode/predecode.rs` |
| `Scope` | `core/{binding,expr}.rs`, `core/transform/succ.rs`, `core/verify/binding.rs` |
| `Sets` | `eval/memory/set.rs` |
| `Shunt` | `core/cook/{shunt,fill}.rs` |
| `Stg` | wrappers of `eval/stg/{boolean,list,block,eq,force,meta,constant,wrap}.rs`, run by the by-name semantics of `Machine`. The intrinsic that consults a block's index always answers "no index" and is replaced by that answer |
| `Simplify` | `core/simplify/{prune,compress}.rs` |
| `Types` | `core/typecheck/{types,subtype,unify}.rs`, `widen_literals` of `check.rs` |
| `Vecs` | `eval/stg/vec.rs`, `eval/memory/vec.rs` |
| `Words` | `eval/stg/{prng,stream_prng}.rs`, key stream of `wire_format.rs`, `eval/memory/{lob,infotable}.rs` |

### Not modelled

Desugaring apart from the parts above, most intrinsics (`eval/stg/*.rs` other than those listed), type inference
(`check.rs` beyond literal widening), imports and exports, the driver, formatting in the full mode, the language server, concurrency in
the driver, floating-point arithmetic outside `Numbers` (where another property needs it, `f64` is a rational with the
conversions' rounding rules stated in the model), raw memory below the level of objects and lines, and the effects of
integer overflow at the top of the address space. External crates are modelled by their documented meaning where a
property needs them (`ndarray`, `blake3`, hash maps, sorting).
