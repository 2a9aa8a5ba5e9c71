# Formal model of libsdd: design

Model and proofs live in `rocq/theories` (logical name `Verif`), Coq 8.16.1, standard library only.
`properties.jsonl` lists the properties, `MANIFEST.json` maps each of them to theorems,
`seeded/LOG.jsonl` records the experiments with edited models.

Every definition of the model cites the file and lines of `/repo` it models. Definitions without a
citation are specification vocabulary (what a user would say) or proof apparatus, and are introduced
as such by the comment of their section. Theorems of the properties are in the `*Props.v` files, each
followed by `Print Assumptions` and by examples which show that its hypotheses are met.

Naming: `Cxx_..._refuted` proves that the claim, or a part of it, is *false* of the code (with a
concrete witness, or for all cases); `Cxx_..._partial` is the part that holds. A `partial` in the
manifest always means "the full claim is false of the code", except for C32 (see below).

## Layout

| files | content |
|---|---|
| `Base.v` | results (`Ok`/`Err`), free monad `prog` in which algorithms are written, its interpretation and Hoare rules |
| `SortedSets.v` | `boost::container::flat_set`/`flat_map` as sorted lists |
| `Values.v`, `FlatSet.v`, `Bitset.v`, `ValuesMore.v`, `ValuesProps.v` | the concept *Values* (operations and laws) and its two instances `sdd/values` |
| `Sdd.v`, `SddFacts.v`, `Spec.v` | SDD trees, assignments, `contains`, canonical form, shapes; canonicity |
| `DDModel.v` | `sdd/dd`: node construction, square union, union, intersection, difference |
| `DDGeneric.v`, `DDFast.v`, `DDProofs.v`, `DDTheorems.v`, `DDAlgebra.v`, `DDProps.v` | their proofs (C01-C12) |
| `Concrete.v` | concrete address orders and values for examples |
| `Count.v`, `Paths.v`, `Tools.v`, `ToolsProofs.v`, `NodeSize.v`, `CountProps.v` | `size()`, `paths()`, `sdd/tools` on diagrams, number of arcs |
| `Pow2.v`, `HashTable.v`, `HashProps.v` | `util/next_power.hh`, `mem/hash_table.hh` |
| `Cached.v`, `Cache.v`, `CacheProofs.v`, `CacheTheorems.v`, `CacheProps.v` | `mem/cache.hh`, `cache_entry.hh`, `lru_list.hh` |
| `Heap.v`, `HeapProofs.v`, `HeapTheorems.v`, `HeapProps.v` | `mem/unique_table.hh`, `unique.hh`, `ptr.hh`: heap of unified data and handles |
| `HandleEq.v`, `HandleEqProps.v` | handles on SDDs in that heap: `==` is equality of sets |
| `Stats.v`, `StatsProps.v` | statistics of tables and caches |
| `Layout.v`, `LayoutProps.v` | byte layout of nodes and homomorphisms, elements placed behind them |
| `Arena.v`, `ArenaProps.v` | `mem/linear_alloc.hh` |
| `Managers.v`, `ManagersProps.v` | `manager.hh`, `internal_manager.hh`, `global.hh`, deletion handlers |
| `Orders.v`, `OrdersProofs.v`, `OrdersMore.v`, `Force.v`, `OrdersSdd.v`, `OrdersProps.v` | `sdd/order` and its strategies, `SDD(order, init)` |
| `Hom.v` | `sdd/hom`: all classes of homomorphisms, constructors, evaluation, rewriting |
| `HomFacts.v` ... `HomRef.v`, `HomConcrete.v`, `HomProps.v` | their proofs (C35-C44, C55) |
| `HomCache.v`, `HomCacheProps.v` | cache of homomorphisms and its key (C45) |
| `HomRewrite.v`, `HomSaturation.v`, `HomRewriteProps.v` | rewriting (C43) |
| `HomTools.v`, `HomToolsProps.v` | DOT and JSON exports of homomorphisms |
| `Variant.v`, `VariantProps.v` | `util/typelist.hh`, `mem/variant.hh`, `variant_impl.hh` |
| `Hash.v`, `HashEqProps.v` | all `operator==` and `std::hash` pairs |
| `Moving.v`, `MovingProofs.v`, `MovingProps.v` | union, intersection, difference when addresses change during an operation |
| `MovingHom.v`, `MovingHomProofs.v`, `MovingHomProps.v` | evaluation of homomorphisms when addresses change during it and user code may throw |
| `MovingHomSafe.v`, `MovingHomSim.v`, `InterruptProps.v` | evaluations that an exception stops or that do not end |
| `Session.v`, `SessionProofs.v`, `SessionProps.v` | sessions: operations and homomorphisms mixed, through the caches, while addresses change |
| `ClashProps.v` | when union, intersection and difference throw |
| `Text.v`, `JsonText.v`, `JsonTextProofs.v`, `JsonTextProps.v`, `JsonReadProps.v` | characters; the JSON text of orders, written and read |
| `SddText.v`, `SddTextProps.v` | the text of sets of values and of SDDs |
| `HomInd.v`, `HomIndProps.v` | inductive homomorphisms |
| `Rows.v`, `Dictionary.v`, `DictionaryProps.v` | the program `examples/dictionary` |
| `Hanoi.v`, `HanoiProofs.v`, `HanoiProps.v` | the program `examples/hanoi` |
| `HomMaps.v` | rules for homomorphisms that act as maps and filters on the rows of flat orders, with selectors that do change values |
| `HomCode.v` | platforms for examples, from prefix codes |
| `Scheduling.v`, `SchedulingProofs.v`, `SchedulingProps.v` | the program `examples/scheduling` |
| `HomText.v`, `HomTextProofs.v`, `HomTextProps.v` | the textual output of homomorphisms |
| `HomReplace.v`, `HomReplaceProps.v` | replacement of parts of homomorphisms (no new code: theorems on the evaluation of `Hom.v`) |
| `ForceMore.v`, `ForceInt.v`, `ForceProps.v` | FORCE: spans, history of the program, int accumulators |
| `SddDot.v`, `SddDotProps.v` | the DOT export of SDDs with the identifiers of an order |
| `HomDot.v`, `HomDotProps.v` | the text of the DOT export of homomorphisms |
| `HomJson.v` | the JSON document of a homomorphism, with its strings |
| `SddStats.v` | statistics of SDDs and the values saved of them |
| `OrderArtificial.v` | the wrapping counter of artificial identifiers |
| `ForceDot.v`, `ForceDotProps.v` | the DOT export of the hypergraphs of FORCE |
| `Iterators.v`, `IteratorsProps.v` | validity of the iterators of hash maps in unions, `size()` and the DOT export |
| `HomRegularProps.v` | intersections of homomorphisms that are not selectors |
| `OrderText.v`, `OrderTextProps.v` | textual output of orders |
| `OrderWidth.v`, `OrderWidthProps.v` | orders with variables and positions that wrap around |
| `FlatHandles.v`, `FlatHandlesSpec.v`, `FlatHandlesProps.v` | programs on variables of type `flat_set`, on the heap of `Heap.v`; what they do on sets |
| `CostProps.v` | number of evaluations through the caches |
| `Oom.v`, `OomProps.v` | `unique_table`, `hash_table` and `cache` when an allocation throws |

## Modelling decisions

* **Diagrams are trees.** In the algorithms an `SDD<C>` handle is the tree it designates, and pointer
  equality is equality of trees. That this is right is proved on a separate model with addresses,
  unicity table, reference counts and an arbitrary allocator (C22, C60).
* **Addresses are arbitrary.** `operator<` on SDDs and homomorphisms compares addresses. The model
  takes an arbitrary strict total order on trees; every theorem quantifies over it. The iteration
  order of `std::unordered_map` is likewise an arbitrary permutation. Unions, intersections,
  differences and the evaluation of homomorphisms are also modelled with an order that changes at each
  traversal of a node or of a container, since a destroyed SDD may be created again elsewhere during an
  operation (`Moving.v`, `MovingHom.v`, C09). The operands of a homomorphism are gone through in the
  order in which they are stored: it is alive during its evaluation.
* **hash() is a function** of the operation in `Session.v`. In the library it depends on the addresses of
  operands, which do not change as long as an entry or a running operation refers to them.
* **Values are a record** of operations with laws, instantiated by `flat_set` and `bitset`.
  No functors or module types.
* **Errors are outcomes.** `top` is `Err (ETop a b)`; undefined behaviour (`__builtin_unreachable`,
  wrong cast, null or dangling dereference, double free) and program termination are distinct errors;
  exhausted fuel is `Err EFuel`. Fuel is never a hypothesis that hides divergence: either the theorem
  says that a given fuel suffices (diagrams, constructors, rewriting), or termination is a relation
  `evals` which is proved independent of fuel (evaluation of homomorphisms, which may diverge).
* **Caches.** Algorithms are written once in a free monad whose only effect is the call of a cached
  operation. They are interpreted by recursion, and through the stateful LRU cache; C18 proves that
  both agree for every history, capacity and hash function.
* **Homomorphisms of users** (functions, inductive homomorphisms) are arbitrary Gallina functions with
  their declared `selector`/`shifter`/`skip`; their `operator==` is Leibniz equality. What the library
  requires of them silently (a declared selector selects, a shifter is injective, operands and order
  match) is a visible hypothesis: `hom_platform_ok`, `typed`.
* **Integers.** Sizes and variables are unbounded except where the code converts or wraps and a
  property depends on it: `next_power_of_2` (64 bits), hash tables and caches capacities, number of
  arcs (C48), number of operands (C62), integer averages of FORCE.
* **Layout** (C62): Itanium ABI rules for fields.

## Plan per property

| id | what is modelled, how it is proved |
|---|---|
| C01 | `Sdd.v`: canonical trees with equal `contains` are equal; induction on trees |
| C02 | generic `work` and fast-iterable `work` of sum.hh; loop invariant on the (res, save, remainder) state |
| C03 | `intersection.hh`; fold invariant over operands |
| C04 | `difference.hh` |
| C05 | same theorems as C02-C04: conclusion includes canonical form |
| C06 | same proof with a shape parameter: errors impossible; fuel = height |
| C07 | same proof without shape: partial correctness, only `ETop` with incompatible heads; then the exact condition (`ClashProps.v`): two assignments clash when, followed together as long as they give equal values, they reach different variables, kinds or lengths; +, & and - throw iff some assignment of one operand clashes with one of the other, at any depth; every SDD a user can build is free of clashes |
| C08 | corollaries of C01-C06 |
| C09 | two runs under two orders/oracles: equal `contains`, and canonical up to arc permutation; runs where each traversal of a container follows an order given by an oracle return the object of a run with one order; the same for homomorphisms, by agreement of the two evaluators on every well-typed application |
| C10 | corollaries |
| C11 | false: witness with two address orders; what holds is exact (`C11_intersection_throws_iff_partial`): in the order of addresses, it throws iff no operand is the zero terminal and some operand clashes with the intersection of those before it; without clash it returns for every order |
| C12 | `create_node` |
| C13 | `SDD(order,init)` recursion on orders |
| C14 | `count_combinations` with memo table, refinement to cardinality of the enumeration |
| C15 | `path_generator` with explicit stack; false for the zero terminal |
| C16, C17 | instances; `to_ulong` for N>64 terminates the program |
| C18-C21 | state machine of cache, LRU list, pool; invariants by induction over histories; clear and some sizes refuted |
| C22-C25 | heap with reference counts, unique table as hash table with chaining; invariants over histories; self-assignment refuted |
| C26 | arena state machine |
| C27 | 64-bit word arithmetic on `N` |
| C28-C31 | order builder trees; induction |
| C32 | saved and reloaded orders, as trees of lists; the JSON text is abstracted: not expressed are quoting and number parsing by the third-party library |
| C33 | FORCE with integer-valued locations, arbitrary sort |
| C34 | false: `smallest_span` is never updated |
| C35-C42, C44 | homomorphism syntax, `eval` in the same free monad, relation `evals`; denotation as relation on assignments for linear homomorphisms |
| C43 | rewriting as a function on homomorphisms; denotation preserved; termination both ways |
| C45 | evaluation through a cache whose key has no order |
| C46 | graph traversal with visited set keyed by node |
| C47 | global pointers state machine |
| C48 | node size cast |
| C49 | buffers of a vector, validity of iterators |
| C50 | text of intervals is parsed back |
| C51 | drawing = set of declarations, against the graph of the diagram |
| C52, C53 | arena with byte addresses |
| C54 | comparison of linked order nodes against equality of trees |
| C55 | typing of homomorphisms, no error outcome for typed ones |
| C56 | one theorem per hashed class |
| C57 | visit tables against pattern matching on the stored type |
| C58, C59 | exports as sets of declarations, as JSON trees; injectivity |
| C60 | heap of C22 with canonical SDD labels; equal handles iff equal sets, over histories |
| C61 | counters of the heap and cache models against counts made on the history |
| C62 | bytes in memory: writes confined, everything readable, offsets computed by the ABI rules |
| C63 | for each stored class, operator== decides equality of contents, given that the comparisons of the user's types do |
| C64 | the heap of C22 with two more outcomes of a creation: `new char[]` throws, `new Data*[]` in `rehash` throws; the invariant of C22 with lost nodes and lost references added, kept by every operation; the rest (no memory lost, caches) is false of the code |
| C65 | a session is a list of commands; the state holds the caches of `Cache.v` and a clock read by the oracle of C09; the laws that an evaluation requires of caches (what is found is a right result) are proved of `Cache.v`; then induction on the session. Inductive homomorphisms are restricted as in C45, whose refutation applies |
| C66 | each call of user code in `MovingHom.v` reads the clock, and throws if a function given with the application (`alarm`) says so: every behaviour of code that throws, whatever it depends on, is one of these. Proof that a result is right and that the caches stay good whether or not the evaluation ends (`MovingHomSafe.v`: only finished evaluations enter a cache; that an entry is not already there is shown by the least bound under which it ends), simulation between the run that throws and the one that does not (`MovingHomSim.v`) |
| C67 | JSON as a grammar (relation `document`), the reader as a recursive function proved to accept exactly this grammar; the writer character by character; three types of identifiers. What is written for an order is parsed by induction on the order. In `JsonReadProps.v`, what the reader makes of escapes: an independent table of UTF-8 and UTF-16, and the spellings of a string |
| C68 | the text as a function to lists of characters; proof that no text begins another one (prefix code), by induction on SDDs, from the same property of decimal numbers and of sets of values |
| C69 | equations on the evaluation of `inductive`, from the model of `evaluation.hh` and `inductive.hh`; the arcs of a canonical node are described by what they contain (values with the same continuations), so that the statement does not mention arcs |
| C70 | the program as a function of the lines of the file; induction on the lines with the theorems on unions, SDDs made from an order, and size |
| C71 | the two inductive homomorphisms of the program are user code of the model; what they do is proved by induction on the order, then the theorems on rewriting and fixpoints give the reachable states; the rules of the game are a separate relation on lists of poles; counting by induction on rings, with a third pole |
| C72 | hash maps with buckets and a number of rehashes; an iterator is valid as long as this number is the one at which it was obtained; how maps grow is arbitrary. Unions: the elements put back are at most those erased, so that the map is never rehashed while `res_end` is used; the evaluation with checks equals the one without, for all operations. `size()` and the DOT export: exact conditions on the numbers of nodes and of terms, by simulation with the models of C14 and C51 |
| C73 | the evaluation through caches of C18-C19 and C61. Whatever the cached answers are, the body of an operation on two flat nodes asks only for operations on a successor of each: by a traversal of the programs (`asks`), with an invariant of the maps of the two versions of the union. The operations reachable from x and y are then pairs of nodes; a cache that has room for all of them never discards, so its misses are its entries, which are distinct |
| C74 | the text as a function to lists of characters; equal to the lines of the nodes by induction on builders; injectivity by induction, what follows a nested order being less indented |
| C75 | the construction of orders with wrapping integers, proved equal to the unbounded one with variables modulo the size of the type; then distinct variables from the layout of nodes |
| C76 | each operation of `flat_set` as operations on handles of the heap of C22; simulation by variables that hold sets |
| C77 | the homomorphisms of `main` as relations on rows (rules of `HomMaps.v`): the functions and `schedule` first, then intersections, compositions and sums, then the saturated fixpoint as the closure of the steps of the program; the specification is an operational semantics of scheduling |
| C78 | invariant of the loop of `build_order` for any order of iteration; counterexamples by computation |
| C79 | texts are characters; no text of an operand is the beginning of another one once followed by what may follow it, by induction on homomorphisms with compositions nested to the right; counterexamples by computation |
| C80 | the static variable `location` is a parameter of the construction of hypergraphs; two states differ by a shift of locations until the first sort, and by nothing that is read afterwards; counterexamples for every sort |
| C81 | each accumulator is checked against `INT_MAX`; bounds on locations, degrees and weights are invariants of the loop |
| C82 | texts are characters; lines are found by their newlines, hyperedges by their points; counterexamples by computation |
| C83 | being alike is a congruence: for each class, the calls of its evaluation are the same, by induction on the order for skipped levels; associativity and fixpoints by the equations of C35 and C38 |
| C84 | the visitor with the order beside the node, then the characters; its items without labels are those of C51; labels by induction on SDDs; the text is a list of lines, a line is a name and one of seven sentences, and SDDs with the same lines have the same assignments by induction; a counterexample by computation |
| C85 | the items of C58 turned into lines; a line is a declaration or an edge, and is read back since names are words; homomorphisms with the same lines are equal by induction on their size, up to the variables of saturation fixpoints; counterexamples by computation |
| C86 | the strategy with the counter as a static unsigned int, advanced by the construction of orders; invariant: all identifiers are different and at most the counter |

## Trusted base

* The kernel of Coq 8.16.1 (conversion with `vm_compute` in examples included), and `coqc`.
* `Print Assumptions` answers *Closed under the global context* for every theorem of the manifest:
  no axiom, of the standard library or otherwise, is used. `vcheck` lists the axioms of
  `Coq.ssr.ssrunder` because that module of the standard library is loaded; no theorem depends on them.
* That the model says what the C++ says. This is by reading: no code was run. It is helped by the
  citations, by the experiments in `seeded/LOG.jsonl`, and by the refuted claims, which had to be
  re-read in the source one by one.
* The semantics given to what libsdd uses: `boost::container::flat_set/flat_map` (sorted unique lists),
  `std::unordered_map` (finite map, arbitrary iteration order), `std::sort` (any sorted permutation),
  `std::set_*` algorithms (modelled loop by loop), `new`/`delete` (any fresh block), C++ layout (C62).

### Modelled

`dd/` (definition, alpha, node, nary, sum, intersection, difference, square_union, count_combinations,
path_generator, top as an error), `hom/` (all classes, constructors, evaluation, rewriting, cache),
`mem/` (cache, cache_entry, lru_list, hash_table, unique_table, unique, ptr, linear_alloc, variant,
variant_impl), `order/` (builder, identifier, node, order, positions, all strategies, FORCE,
loading and saving up to the text), `values/` (flat_set, bitset, empty_values, values_traits, display),
`tools/` (nodes, arcs, size, dot for diagrams and homomorphisms, js, order saving, statistics),
`util/` (next_power, hash, typelist, packed), `manager.hh`, `internal_manager.hh`, `global.hh`;
`examples/dictionary`, `examples/hanoi` and `examples/scheduling`.

### Not modelled

* Text output (`operator<<`) except sets of values (C50, C68), SDDs (C68), orders (C74), homomorphisms (C79) and the exports (C51, C58, C59, C67, C82, C84, C85).
* RapidJSON (third party: the JSON grammar is modelled in C67, numbers with a fraction or an exponent and objects being
  rejected as the reader of orders does), the archives of cereal (`tools/serialization.hh` is modelled up to the values given to the archive, for
  the statistics of SDDs (C46)).
* Time and memory consumption, floating-point load factors (as real numbers compared by cross product).
* Exceptions thrown by allocation (`bad_alloc`) other than those of C64: in the containers of the standard library
  used during an evaluation, and in the construction of a manager.
* In `examples/scheduling`: the random generator of tasks, the architecture and the measures of time.
* Threads: the library has none.
* The exception type carried by errors beyond its operands.
* Debug assertions (`assert`): their conditions are proved where they are preconditions of a model
  function, otherwise ignored as in release builds.

## Findings

Each is proved by a `_refuted` theorem, or by the theorem named.

| claim | what the code does |
|---|---|
| C11 | whether an n-ary intersection of incompatible operands throws or returns the zero terminal depends on addresses |
| C15 | `paths()` of the zero terminal produces one (empty) path, as for the one terminal |
| C17 | `operator<` and `std::hash` of `bitset<N>`, N > 64, call `to_ulong` in a `noexcept` function |
| C20 | `cache::clear` keeps the nodes of the LRU list: later evictions are wrong, the list grows without bound |
| C21 | capacity 0 or 1 (or above 2^63) writes outside of the pool of the cache; 0 makes the first insertion in a unique table out of bounds |
| C24 | `x = x`, `x = std::move(x)` and `x = part of x` use destroyed data or lose it |
| C31 | `identifiers_per_hierarchy(0)` never ends; with 1 nothing changes |
| C32 | saving an empty order dereferences null |
| C34 | FORCE returns the last order it computed |
| C35 | merging two locals on the same variable changes the result if the left one depends on whole sets |
| C37 | regrouping locals which are not selectors changes the result; it does not when, hierarchy by hierarchy, the operands send disjoint sets to disjoint sets or are all the same (`HomRegularProps.v`) |
| C39 | `if_then_else(p, t, t)` is simplified to `t`, which is wrong when `t` does not distribute over union |
| C43 | rewriting changes results of homomorphisms that depend on whole sets |
| C45 | the cache of homomorphisms has no order in its key |
| C47 | `init` tests the wrong global pointer: two configurations that share a stateful `Values` type destroy each other's table |
| C48 | a node with 65536 arcs has none; nodes which differ only beyond are unified |
| C49 | `flat_set::insert` returns a dangling iterator when unification frees the buffer |
| C52, C53 | the arena ignores alignment; a block of `operator new` just behind the buffer leaks |
| C56 | the hash of an order uses addresses whereas `==` compares contents; equal `cons` are then kept twice |
| C57, C62 | with `LIBSDD_PACKED` data are misaligned; without it, the operands of every sum still are on 64-bit platforms (`C62_operands_aligned_refuted`), and 2^32 operands are lost |
| C58, C59 | classes without a visitor are ignored by the DOT export, and are all `TODO` in JSON; the names of identities repeat beyond 2^32 of them (`C58_identities_differ`) |
| C64 | a creation that throws when a unicity table grows leaves the node linked and never erased; a later creation of the same node loses its own block and references; a failed insertion in the LRU list of a cache loses a slot of the pool, and ends in a null dereference |
| C67 | `dump_order` writes strings without escapes: an identifier with a quote or a backslash is not read back, `a","b` is read as two identifiers; integers are read by `stoi` or `GetInt`: those outside of `int` are not read back; characters are not read back; `mk_order_identifier` throws although `noexcept` |
| C68 | a set of strings that contain commas has the text of another set; the text of a set depends on addresses |
| C69 | inductive homomorphisms see sets of values, so they need not distribute over unions |
| C70 | the dictionary example counts `a` and `a#` as one word |
| C72 | `size()` and the DOT export keep an iterator of their hash map while they visit successors, which insert in this map: undefined behaviour as soon as the map is rehashed, which some diagram does however maps grow |
| C74 | an identifier such as `@1@`, or with a line break, gives the text of another order |
| C75 | a level with one identifier more than the type of variables has values gives two of them the same variable, without an error |
| C76 | `v = v` on a `flat_set` that is the only holder of a non-empty set deletes the data, then reads them (as C24) |
| C77 | the filters on the deadline are accumulated from a core to the next one (`filters_set` is not cleared in the loop of `scheduling.cpp` 89-102): a task is given to a core only if it meets its deadline on all the previous ones; the program prints 0 on a set of three tasks that can be scheduled |
| C77 | a task can start on another core before the end of a task it depends on |
| C77 | without tasks or without cores, the program throws `std::invalid_argument` |
| C77 | `schedule_tau` declares itself a selector though it changes values; harmless here, as proved |
| C78 | `build_order` reads `*next` after `free_tasks.erase(next)` |
| C78 | `build_order` only checks that no dependency is in the set of free tasks: a task can come before a task it depends on |
| C79 | the text of a cons has the first identifier of its order only; conses on two orders have the same text and different results |
| C79 | the text of a saturation fixpoint without part G is not closed: two rewritten homomorphisms have the same text and different results |
| C79 | parentheses of saturation sums (without part G) and saturation intersections (with a part G) do not match |
| C80 | locations of new hypergraphs go on from those of the previous ones (`static double location`): the same hypergraph built twice may get two orders, if weights differ or if an identifier is in no hyperedge; applied twice to the same hypergraph, FORCE gives two orders |
| C81 | sums of doubles are accumulated in an int: a hyperedge with 65537 identifiers, or two identifiers once 2^30 have been given to hypergraphs, is undefined behaviour |
| C82 | the DOT export of a hypergraph has no weights, does not quote the names of nodes and does not escape identifiers: `p-1` is refused by DOT, an identifier on two lines has the export of three others |
| C83 | `a & b` may not end although `a' & b` does, where `a` and `a'` always give the same results: intersections stop at the first empty result, arc by arc at skipped levels, on the whole diagram otherwise |
| C84 | the DOT export of an SDD labels a node shared by two hierarchies with the identifier of one of them (the last visited level of the order comes first); it dereferences null if the order lacks levels |
| C85 | the DOT export of a homomorphism does not write the variable of saturation fixpoints; the ends of edges that lead to cons, constant, inductive, intersection, saturation sum and saturation intersection are not declared |
| C86 | the counter of artificial identifiers is advanced by each node of each order built (default constructor of `order_node`) and wraps: after 65537 orders of 65535 identifiers, the next hierarchy of `identifiers_per_hierarchy` has the default identifier of the user, and an order with that identifier is refused as a duplicate |
