{"id": "C01", "title": "Canonicity: equality of SDDs is equality of sets", "statement": "Two SDDs obtained from the library compare equal with == exactly when they contain the same assignments; in particular there is at most one SDD for each set of assignments.", "quantifier": "all pairs of well-formed SDDs of any depth, width and hierarchy, all Values types meeting the documented concept, all address orders", "why_tests_cant": "Needs every pair of diagrams; a test compares a few.", "anchors": ["sdd/dd/definition.hh: operator==, create_node, unify_node", "sdd/dd/alpha.hh: alpha_builder", "sdd/dd/node.hh: node"]}
{"id": "C02", "title": "Union is set union", "statement": "x + y, sum(begin,end) and sum({...}) return an SDD containing an assignment iff at least one operand contains it.", "quantifier": "all finite families of well-formed SDDs, flat and hierarchical, any Values type, any address order and hash-map iteration order", "why_tests_cant": "The n-ary union splits and re-merges valuations along several loops; the number of overlap patterns is unbounded.", "anchors": ["sdd/dd/sum.hh: sum_op_impl::work, sum, operator+", "sdd/dd/square_union.hh"]}
{"id": "C03", "title": "Intersection is set intersection", "statement": "x & y and intersection(begin,end) return an SDD containing an assignment iff every operand contains it (for a non-empty family).", "quantifier": "all finite non-empty families of well-formed SDDs", "why_tests_cant": "Unbounded number of operands and overlap patterns.", "anchors": ["sdd/dd/intersection.hh: intersection_op_impl::work, intersection, operator&"]}
{"id": "C04", "title": "Difference is set difference", "statement": "x - y returns an SDD containing an assignment iff x contains it and y does not.", "quantifier": "all pairs of well-formed SDDs", "why_tests_cant": "Unbounded diagrams; the two passes over the left operand must partition exactly.", "anchors": ["sdd/dd/difference.hh: difference_visitor, difference, operator-"]}
{"id": "C05", "title": "Operations keep diagrams in canonical form", "statement": "Every SDD returned by a constructor or by +, &, - is canonical: a node has at least one arc, no arc has an empty valuation or a |0| successor, valuations of a node are pairwise disjoint, successors are pairwise different, and arcs are stored in the one order used for all nodes.", "quantifier": "all operands, all nesting depths", "why_tests_cant": "An invariant over every reachable diagram; a single violation silently breaks == and the caches.", "anchors": ["sdd/dd/definition.hh: create_node", "sdd/dd/square_union.hh: operator()", "sdd/dd/alpha.hh: alpha_builder::add"]}
{"id": "C06", "title": "Operations on compatible diagrams terminate with a result", "statement": "If all operands follow one common order of variables (same shape), then +, &, - terminate, throw no top exception, reach no undefined behaviour, and the result follows the same order.", "quantifier": "all families of SDDs following one order, any depth", "why_tests_cant": "Absence of an exception and termination over all inputs cannot be sampled.", "anchors": ["sdd/dd/check_compatibility.hh", "sdd/dd/nary.hh: nary_op::operator()", "sdd/dd/top.hh"]}
{"id": "C07", "title": "Incompatible operands are reported, never silently mixed", "statement": "If +, & or - returns normally then the result is exactly the set operation of the operands, whatever they are. The only exception is top, and it carries two SDDs whose heads really are incompatible. It is thrown exactly when some assignment of one operand clashes with some assignment of another: followed together as long as they give the same values, they come to different variables, to a flat and a hierarchical variable, or to the end of only one of them. So x+y, x&y and x-y throw on the same pairs, whatever the addresses, and no SDD ever contains two assignments that clash.", "quantifier": "all families of well-formed SDDs, compatible or not", "why_tests_cant": "Quantifies over all malformed combinations.", "anchors": ["sdd/dd/check_compatibility.hh: check_compatibility", "sdd/dd/top.hh", "sdd/dd/difference.hh", "sdd/dd/sum.hh: work", "sdd/dd/intersection.hh: work"]}
{"id": "C08", "title": "Set algebra holds up to ==", "statement": "Up to ==: + and & are commutative, associative and idempotent, distribute over each other and absorb; |0| is neutral for + and absorbing for &; x - x is |0|; x - (y+z) = (x-y)-z = (x-y)&(x-z); (x&y)+(x-y) = x.", "quantifier": "all triples of SDDs following one order", "why_tests_cant": "Universal algebraic laws.", "anchors": ["sdd/dd/sum.hh", "sdd/dd/intersection.hh", "sdd/dd/difference.hh", "tests/dd/"]}
{"id": "C09", "title": "Results do not depend on memory addresses or hash-map iteration order", "statement": "The set of assignments contained in the result of +, &, - on compatible operands is the same for every address order (operator< is documented as arbitrary and changing at each run) and every iteration order of the hash map used by the union, and the two result diagrams are equal up to the order in which arcs are listed. This also holds when SDDs are destroyed and created again at other addresses during the operation, so that the order changes from one traversal of a container to the next; and whatever these orders, an operation on any operands either returns the right set or throws top with two incompatible SDDs. Likewise the application of a homomorphism compatible with its order and operand ends, or not, in the same way and with the same result, whatever these orders.", "quantifier": "all pairs of address orders and iteration orders, all sequences of such orders during an operation, all compatible operands, all homomorphisms compatible with their order and operand", "why_tests_cant": "A test run sees one memory layout.", "anchors": ["sdd/dd/definition.hh: operator<", "sdd/dd/sum.hh: work (std::unordered_map res)"]}
{"id": "C10", "title": "n-ary operations do not depend on order, duplication or grouping of operands", "statement": "sum of a list of compatible SDDs is unchanged by permuting, duplicating, adding |0| or splitting the list in two and summing the partial sums; likewise for intersection without |0|; the sum of the empty list is |0|, the sum or intersection of one SDD is that SDD, and any |0| operand makes an intersection |0|.", "quantifier": "all lists of compatible SDDs", "why_tests_cant": "Unbounded lists.", "anchors": ["sdd/dd/nary.hh: nary_builder", "sdd/dd/sum.hh: sum_builder_policy", "sdd/dd/intersection.hh: intersection_builder_policy"]}
{"id": "C11", "title": "Whether an n-ary intersection throws depends only on its operands", "statement": "Whether intersection({x,y,z}) throws top or returns is determined by the operands as sets, not by where they are in memory. (False. What holds: it throws exactly when no operand is |0| and, in the order of addresses, some operand has an assignment that clashes with an assignment of the intersection of the operands before it; when no two operands clash it returns for every order of addresses.)", "quantifier": "all operand families and all address orders", "why_tests_cant": "A run only exhibits one address order.", "anchors": ["sdd/dd/intersection.hh: work lines 57-99"]}
{"id": "C12", "title": "Single-arc constructor", "statement": "SDD(var, values, succ) contains exactly the assignments made of a value of values for var followed by an assignment of succ (resp. of a nested assignment for hierarchical SDDs), and is |0| iff values or succ is empty; empty() is true exactly for SDDs containing no assignment.", "quantifier": "all variables, valuations and successors", "why_tests_cant": "Universal over inputs.", "anchors": ["sdd/dd/definition.hh: create_node, empty, SDD(var,val,succ)"]}
{"id": "C13", "title": "Construction from an order", "statement": "SDD(order, init) follows the order and contains exactly the assignments giving each flat identifier a value from init(identifier); it is |0| iff some init(identifier) is empty.", "quantifier": "all orders (any hierarchy) and all initializers", "why_tests_cant": "Orders are arbitrarily deep.", "anchors": ["sdd/dd/definition.hh: SDD(cxt, order, init)"]}
{"id": "C14", "title": "size() is the number of assignments", "statement": "x.size() equals the number of distinct assignments contained in x (0 for |0|, 1 for |1|), without overflow, although it memoises by node address.", "quantifier": "all well-formed SDDs", "why_tests_cant": "Counting correctness for arbitrarily shared diagrams.", "anchors": ["sdd/dd/count_combinations.hh"]}
{"id": "C15", "title": "paths() enumerates the diagram", "statement": "Iterating x.paths() yields a finite sequence of sequences of valuations, whose products are pairwise disjoint and whose union is the set of flat value sequences of x; in particular nothing is yielded for |0|.", "quantifier": "all well-formed SDDs", "why_tests_cant": "Unbounded enumeration with an explicit stack for hierarchies.", "anchors": ["sdd/dd/path_generator.hh", "sdd/dd/sdd_stack.hh"]}
{"id": "C16", "title": "flat_set values behave as sets", "statement": "flat_set sum, intersection, difference, insert, erase, find, size, empty and == implement finite sets of values, == being true exactly for equal sets.", "quantifier": "all finite sets of ordered values and all operation sequences", "why_tests_cant": "All inputs.", "anchors": ["sdd/values/flat_set.hh"]}
{"id": "C17", "title": "bitset values behave as sets", "statement": "bitset<N> sum, intersection, difference, insert, content, test, shifts, size, empty and == implement sets of integers below N, for every N; comparison and hashing never terminate the program.", "quantifier": "all sizes N, all values, all operation sequences", "why_tests_cant": "All widths, including N > 64.", "anchors": ["sdd/values/bitset.hh"]}
{"id": "C18", "title": "Operation caches are transparent", "statement": "The result of an operation is the same whatever the cache capacity, whatever was evaluated, evicted or cleared before, and whether or not the operation is filtered; an evaluation that throws leaves no entry behind.", "quantifier": "all sequences of operations, all capacities, all hash functions", "why_tests_cant": "Ranges over all histories of a stateful cache with recursion through it.", "anchors": ["sdd/mem/cache.hh: operator()", "sdd/mem/cache_entry.hh"]}
{"id": "C19", "title": "Caches are bounded and evict the least recently used entry", "statement": "A cache never holds more than its capacity, evicts only when full, evicts exactly the least recently used entry, never exhausts or corrupts its fixed pool, and hits + misses + filtered counts every call.", "quantifier": "all histories of lookups", "why_tests_cant": "Ranges over all histories.", "anchors": ["sdd/mem/cache.hh: operator(), pool", "sdd/mem/lru_list.hh"]}
{"id": "C20", "title": "Clearing a cache leaves a usable empty cache", "statement": "After clear() (manager::reset_hom_cache) the cache behaves as a newly constructed one for any subsequent sequence of operations.", "quantifier": "all histories including clear()", "why_tests_cant": "Needs a clear() followed by enough insertions to trigger eviction.", "anchors": ["sdd/mem/cache.hh: clear", "sdd/manager.hh: reset_hom_cache"]}
{"id": "C21", "title": "Any accepted cache capacity works", "statement": "For every requested capacity the cache (and the unique table) can be constructed and used without undefined behaviour.", "quantifier": "all requested sizes of type std::size_t", "why_tests_cant": "Corner sizes 0, 1 and above 2^63.", "anchors": ["sdd/mem/cache.hh: cache(context,size)", "sdd/mem/hash_table.hh", "sdd/util/next_power.hh"]}
{"id": "C22", "title": "Unification: one live object per value", "statement": "At any time, two live handles designate equal data iff they are the same pointer, for any history of creations, copies, destructions, table growth and memory reuse.", "quantifier": "all histories of creation/copy/destruction, all hash functions, all allocator choices", "why_tests_cant": "Ranges over all histories and allocator behaviours.", "anchors": ["sdd/mem/unique_table.hh", "sdd/mem/hash_table.hh: insert, rehash, erase", "sdd/dd/definition.hh: unify_node"]}
{"id": "C23", "title": "Reference counting neither frees too early nor leaks", "statement": "A node is alive as long as a handle or a live node refers to it, its content never changes while alive, and when all handles are destroyed no node remains.", "quantifier": "all histories of copy, move, assignment, swap and destruction of handles", "why_tests_cant": "Ranges over all histories.", "anchors": ["sdd/mem/ptr.hh", "sdd/mem/unique.hh", "sdd/mem/unique_table.hh: erase"]}
{"id": "C24", "title": "Assigning a handle to itself is harmless", "statement": "x = x leaves x valid and designating the same data, as for any C++ value type.", "quantifier": "all states of the reference counts", "why_tests_cant": "Only fails when the handle is the last one.", "anchors": ["sdd/mem/ptr.hh: operator=(const ptr&), operator=(ptr&&)"]}
{"id": "C25", "title": "Hash table behaves as a set", "statement": "Insertion, lookup, erasure and clearing of the intrusive hash table implement a set of values modulo ==, for any hash function, across rehashing; size() is the number of elements and collisions() partitions the buckets.", "quantifier": "all sequences of operations, all hash functions, all power-of-two bucket counts", "why_tests_cant": "All histories and hash functions.", "anchors": ["sdd/mem/hash_table.hh"]}
{"id": "C26", "title": "Arena allocations are disjoint and released", "statement": "Blocks handed out by the arena that are still allocated never overlap and stay inside the buffer, requests that do not fit are served elsewhere, and leaving a rewinder scope restores the free space, for every sequence of allocations, deallocations in any order and nested scopes.", "quantifier": "all sequences of allocate/deallocate/rewinder scopes, all sizes", "why_tests_cant": "All histories.", "anchors": ["sdd/mem/linear_alloc.hh: arena, rewinder"]}
{"id": "C27", "title": "next_power_of_2 rounds up", "statement": "next_power_of_2(n) is the least power of two greater or equal to n for 1 <= n <= 2^63.", "quantifier": "all 64-bit integers", "why_tests_cant": "2^64 inputs.", "anchors": ["sdd/util/next_power.hh"]}
{"id": "C28", "title": "Orders associate identifiers to positions and variables consistently", "statement": "Building an order from a builder succeeds iff no user identifier occurs twice; each identifier gets a distinct position numbered top to bottom, the variables of one level count down to 0 at the bottom, node(id) finds every identifier of the order and throws for others, and the path of an identifier is the list of hierarchies containing it.", "quantifier": "all order builders of any depth", "why_tests_cant": "Unbounded nesting.", "anchors": ["sdd/order/order.hh: mk_nodes_ptr, node, contains", "sdd/order/order_builder.hh"]}
{"id": "C29", "title": "Order builders: concatenation, push, size", "statement": "Pushing adds an identifier at the top, << appends, size() is the number of identifiers at all levels and the constructor from a list keeps its order.", "quantifier": "all builders", "why_tests_cant": "Unbounded structures.", "anchors": ["sdd/order/order_builder.hh"]}
{"id": "C30", "title": "flatten keeps the flat identifiers", "statement": "flatten(ob) has no hierarchy, and its identifiers are the flat identifiers of ob from top to bottom; order(ob).flat() lists the same identifiers.", "quantifier": "all builders", "why_tests_cant": "Unbounded structures.", "anchors": ["sdd/order/strategies/flatten.hh", "sdd/order/order.hh: flat"]}
{"id": "C31", "title": "identifiers_per_hierarchy bounds every level it builds", "statement": "identifiers_per_hierarchy(n)(ob) terminates, keeps the flat identifiers in the same order and returns an order with at most n identifiers at the top level and at every level it created.", "quantifier": "all builders and all n", "why_tests_cant": "Unbounded builders; corner cases n = 0, 1.", "anchors": ["sdd/order/strategies/identifiers_per_hierarchy.hh"]}
{"id": "C32", "title": "Saving and reloading an order keeps its identifiers", "statement": "load_order(dump_order(o)) succeeds and gives an order with the same flat identifiers from top to bottom and the same hierarchy up to names of hierarchies and single-element hierarchies.", "quantifier": "all orders", "why_tests_cant": "Unbounded orders, including the empty one.", "anchors": ["sdd/tools/order.hh: load_order, load_order_impl, dump_order"]}
{"id": "C33", "title": "FORCE returns an order of exactly the given variables", "statement": "force(...)(iterations) returns a flat order containing each vertex of the hypergraph exactly once.", "quantifier": "all hypergraphs and iteration counts, all (unstable) sorts", "why_tests_cant": "All inputs and sort implementations.", "anchors": ["sdd/order/strategies/force.hh", "sdd/order/strategies/force_hypergraph.hh"]}
{"id": "C34", "title": "FORCE keeps the best order it met", "statement": "force returns the order with the smallest span among those it computed, as its documentation states.", "quantifier": "all hypergraphs and iteration counts", "why_tests_cant": "Needs an instance where the span increases.", "anchors": ["sdd/order/strategies/force.hh: operator()"]}
{"id": "C35", "title": "Homomorphisms preserve |0| and compose", "statement": "Every homomorphism maps |0| to |0|, Id maps x to x, and composition(h,g)(x) = h(g(x)), including after the simplifications done by the constructor.", "quantifier": "all homomorphisms (with linear local parts), orders and compatible SDDs", "why_tests_cant": "All homomorphisms.", "anchors": ["sdd/hom/definition.hh: operator()", "sdd/hom/composition.hh"]}
{"id": "C36", "title": "sum of homomorphisms", "statement": "sum(o,{h1..hn})(x) = h1(x)+...+hn(x), including after flattening and regrouping of locals by the constructor.", "quantifier": "all families of homomorphisms and SDDs", "why_tests_cant": "All homomorphisms.", "anchors": ["sdd/hom/sum.hh"]}
{"id": "C37", "title": "intersection of homomorphisms", "statement": "intersection(o,{h1..hn})(x) = h1(x)&...&hn(x), including after regrouping of locals by the constructor.", "quantifier": "all families of homomorphisms and SDDs", "why_tests_cant": "All homomorphisms; needs overlapping successors.", "anchors": ["sdd/hom/intersection.hh"]}
{"id": "C38", "title": "fixpoint", "statement": "fixpoint(h)(x) is a fixed point of h reached from x, and when h = h'+Id with monotone h' it is the least set containing x and closed under h'. With linear parts, its evaluation terminates exactly when finitely many assignments can be reached.", "quantifier": "all homomorphisms and SDDs on which evaluation terminates", "why_tests_cant": "Unbounded iteration.", "anchors": ["sdd/hom/fixpoint.hh"]}
{"id": "C39", "title": "if_then_else", "statement": "if_then_else(p,h,g)(x) = h(p(x)) + g(x - p(x)), including after the constructor's simplifications, and a predicate that is not a selector is rejected.", "quantifier": "all homomorphisms and SDDs", "why_tests_cant": "All homomorphisms.", "anchors": ["sdd/hom/if_then_else.hh"]}
{"id": "C40", "title": "local", "statement": "local(id,h) applies h to the nested part of the assignments at id and keeps everything else: (a,r) is in the result iff it comes from some (b,r) of x by h on b, for linear h; selector locals take the fast path with the same result.", "quantifier": "all homomorphisms and SDDs", "why_tests_cant": "All homomorphisms.", "anchors": ["sdd/hom/local.hh", "sdd/order/carrier.hh"]}
{"id": "C41", "title": "function", "statement": "function(o,id,f) replaces the value set of the target variable by f of it and keeps everything else.", "quantifier": "all value functions and SDDs", "why_tests_cant": "All functions.", "anchors": ["sdd/hom/function.hh"]}
{"id": "C42", "title": "Skipping levels is sound", "statement": "Propagating a homomorphism that skips a variable directly to the successors gives the same set as applying it to the whole diagram.", "quantifier": "all homomorphisms, orders and SDDs", "why_tests_cant": "All diagrams.", "anchors": ["sdd/hom/evaluation.hh: evaluation, skip"]}
{"id": "C43", "title": "Saturation rewriting preserves results", "statement": "rewrite(o,h)(o,x) = h(o,x) for every homomorphism and every SDD following o: one evaluation terminates exactly when the other does, and they give the same result.", "quantifier": "all orders, all SDDs following them and all homomorphisms whose elementary parts distribute over unions (operands of intersections being filters); it fails for the others", "why_tests_cant": "All homomorphisms.", "anchors": ["sdd/hom/rewrite.hh", "sdd/hom/saturation_sum.hh", "sdd/hom/saturation_intersection.hh", "sdd/hom/saturation_fixpoint.hh"]}
{"id": "C44", "title": "Selectors select", "statement": "A homomorphism whose selector() is true returns a subset of its argument, given that user selectors do.", "quantifier": "all homomorphisms and SDDs", "why_tests_cant": "All compositions.", "anchors": ["sdd/hom/definition.hh: selector", "sdd/hom/*.hh: selector"]}
{"id": "C45", "title": "Homomorphism results do not depend on the history of orders used", "statement": "h(o,x) depends only on h, o and x, although the cache key ignores the order.", "quantifier": "all histories of applications with different orders", "why_tests_cant": "Needs two orders and one cache.", "anchors": ["sdd/hom/evaluation.hh: cached_homomorphism"]}
{"id": "C46", "title": "nodes(), arcs() and size tools count each shared node once", "statement": "tools::nodes counts each distinct node of the diagram once and tools::arcs sums the arcs over distinct nodes. The statistics of a diagram, and what is saved of them in an archive, are these numbers, with an entry of the frequencies for each number of arcs that some node has and no other.", "quantifier": "all diagrams with any sharing", "why_tests_cant": "All diagrams.", "anchors": ["sdd/tools/nodes.hh", "sdd/tools/arcs.hh", "sdd/tools/sdd_statistics.hh sdd_statistics", "sdd/tools/serialization.hh save"]}
{"id": "C47", "title": "At most one manager per configuration and no interference", "statement": "init throws if a manager of the configuration is alive, and a live manager's global state is not changed by creating or destroying managers of other configurations.", "quantifier": "all sequences of init and destruction for several configurations", "why_tests_cant": "All histories; needs configurations sharing a Values type.", "anchors": ["sdd/manager.hh: init, ~manager"]}
{"id": "C48", "title": "All arcs of a node are kept", "statement": "A node built from n arcs exposes these n arcs, whatever n.", "quantifier": "all numbers of arcs", "why_tests_cant": "Needs at least 65536 arcs.", "anchors": ["sdd/dd/node.hh: node", "sdd/conf/default_configurations.hh: alpha_size_type"]}
{"id": "C49", "title": "The iterator returned by flat_set::insert is valid", "statement": "The iterator returned by flat_set::insert(x) points to x inside the set, whether or not x was already in it.", "quantifier": "every set, every value, every state of the unique table", "why_tests_cant": "Reading through a dangling iterator usually appears to work; validity depends on whether the vector was reallocated and whether the resulting set was already unified.", "anchors": ["sdd/values/flat_set.hh: flat_set::insert, create, unify"]}
{"id": "C50", "title": "Display of an integral flat_set denotes its content", "statement": "operator<< of a flat_set of integers displays maximal intervals which, read as a..b, denote exactly the values of the set; two sets with the same text are equal.", "quantifier": "every finite set of values", "why_tests_cant": "The loop has several boundary cases (single values, runs at both ends); a test only covers some of them.", "anchors": ["sdd/values/flat_set.hh: operator<<"]}
{"id": "C51", "title": "The DOT export draws the diagram", "statement": "The DOT export of x declares every node and terminal reachable from x exactly once and draws every arc of each of them exactly once.", "quantifier": "all diagrams with any sharing", "why_tests_cant": "All diagrams; sharing between valuations and successors.", "anchors": ["sdd/tools/dot/sdd.hh"]}
{"id": "C52", "title": "Memory of the arena is aligned", "statement": "The memory returned by the arena allocator for a type is suitably aligned for that type.", "quantifier": "every sequence of allocations of any types, deallocations and scopes", "why_tests_cant": "Depends on the mix of sizes served before; on most platforms a misaligned access goes unnoticed.", "anchors": ["sdd/mem/linear_alloc.hh: linear_alloc::allocate, linear_alloc_mem"]}
{"id": "C53", "title": "Memory served outside of the arena is given back", "statement": "A block that the arena allocator took from operator new, because its buffer was exhausted, is given back to the system when it is deallocated.", "quantifier": "every history of allocations and deallocations and every placement of blocks by operator new", "why_tests_cant": "Depends on the addresses chosen by operator new.", "anchors": ["sdd/mem/linear_alloc.hh: linear_alloc::deallocate, pointer_in_buffer"]}
{"id": "C54", "title": "Equality of orders", "statement": "Two orders, or parts of orders reached by next() and nested(), compare equal exactly when they are the same sequence of identifiers with the same hierarchy, at the same position of their order.", "quantifier": "every pair of order builders and every pair of parts of their orders", "why_tests_cant": "The comparison walks two pointer structures of any size and depth.", "anchors": ["sdd/order/order.hh: operator==, order::next, order::nested, order::position"]}
{"id": "C55", "title": "Well-typed homomorphisms never fail", "statement": "Applying a homomorphism to an SDD, with an order that describes both, either returns an SDD of the expected shape or does not terminate: it throws no exception and dereferences nothing invalid. Without fixpoint it always terminates, and the result is unique.", "quantifier": "all orders, homomorphisms compatible with them, and SDDs", "why_tests_cant": "Depends on every combination of homomorphism constructors, order shapes and diagram contents.", "anchors": ["sdd/hom/evaluation.hh: evaluation, cached_homomorphism", "sdd/hom/definition.hh: homomorphism::operator()"]}
{"id": "C56", "title": "Equal objects have equal hashes", "statement": "Whenever two objects of a hashed class (nodes, SDD data, arcs, keys of the operation caches, values, identifiers, orders, homomorphisms) compare equal, their hashes are equal, so that hash tables and caches find what they hold. False for orders, hence for cons homomorphisms: their hash depends on addresses that the comparison ignores, and equal homomorphisms can then be kept twice and compare different.", "quantifier": "every pair of objects of each class, every hash of integers, pointers and user's types", "why_tests_cant": "Tests compare a few objects; unicity needs the law for every pair, at every address.", "anchors": ["sdd/util/hash.hh: hash_combine, seed, val, range", "sdd/dd/node.hh: std::hash<node>", "sdd/order/order.hh: std::hash<order>", "sdd/hom/cons.hh: std::hash<_cons>"]}
{"id": "C57", "title": "Visits reach the stored type", "statement": "A tagged union built with a value of a listed type remembers this type: visiting it calls the overload of that type with the stored value, visiting two of them calls the overload of both types, is<T> and equality tell exactly the stored types, a cast after is<T> reads the stored value, and the storage is large enough and aligned for each listed type.", "quantifier": "all lists of at most 255 types, stored values, visitors", "why_tests_cant": "The jump table is computed from type lists of any length; tests use one list.", "anchors": ["sdd/mem/variant.hh: variant, is, variant_cast, operator==", "sdd/mem/variant_impl.hh: apply_visitor, apply_binary_visitor, union_storage", "sdd/util/typelist.hh: index_of, join"]}
{"id": "C58", "title": "DOT export of homomorphisms", "statement": "The DOT export of a homomorphism declares one node for each distinct homomorphism that it contains, with one edge for each of its operands in order, and nothing else. False for the classes without a visitor (cons, constant, inductive, intersection, saturation sum and intersection).", "quantifier": "all homomorphisms, with any sharing of operands", "why_tests_cant": "Sharing and nesting are unbounded.", "anchors": ["sdd/tools/dot/homomorphism.hh: hom_to_dot_visitor, dot"]}
{"id": "C59", "title": "JSON export of homomorphisms", "statement": "The JSON export of a homomorphism determines it. True for compositions, fixpoints, functions, identity, locals and sums; every other class is exported as the same text.", "quantifier": "all homomorphisms", "why_tests_cant": "Injectivity compares all pairs of homomorphisms.", "anchors": ["sdd/tools/js.hh: hom_to_json_visitor, js"]}
{"id": "C60", "title": "Equality of handles is equality of sets", "statement": "At any time in the life of a program, two SDD handles compare equal exactly when they represent the same set of assignments, and a handle is empty exactly when it contains no assignment, whatever nodes and handles were created, copied, moved, assigned, swapped and destroyed before, even when a destroyed node has been created again at another address.", "quantifier": "all histories of node creations and operations on handles, all allocators, hash functions, initial sizes of the unicity table and types of values", "why_tests_cant": "Handles are compared by address and arcs are sorted by address; whether two equal sets always end up in the same node depends on every past allocation and destruction.", "anchors": ["sdd/dd/definition.hh: operator==, operator<, empty, unify_node", "sdd/dd/node.hh: node, operator==", "sdd/mem/ptr.hh: ptr", "sdd/mem/unique_table.hh: unique_table"]}
{"id": "C61", "title": "Statistics of tables and caches say what happened", "statement": "After any history of creations, copies, moves, assignments, swaps and destructions of handles, the statistics of a unicity table satisfy: access is the number of creations of data; hits is the number of creations of data that was, at that time, already a part of something a live handle designates; hits + misses = access; size is the number of different data that live handles need; peak is the maximum of that number over the whole history; buckets is the initial number of buckets doubled at each rehash; collisions + alone + empty = buckets. For a cache that is never cleared, size + discarded <= misses, with equality when no evaluation fails, and collisions + alone + empty = buckets = the power of two chosen at construction.", "quantifier": "all histories of operations on handles, all allocators, all hash functions, all sizes of nodes, all initial sizes; all cached operations, all cache sizes >= 2, all sequences of calls", "why_tests_cant": "The counters summarise an unbounded history; peak in particular depends on every intermediate state, and hits depend on which data happens to be alive at the time of each creation.", "anchors": ["sdd/mem/unique_table.hh: unique_table::operator(), unique_table::stats, unique_table_statistics", "sdd/mem/cache.hh: cache::operator(), cache::statistics, cache_statistics", "sdd/mem/hash_table.hh: hash_table::collisions, hash_table::rehash", "sdd/tools/manager_statistics.hh: manager_statistics"]}
{"id": "C62", "title": "Arcs and operands stored behind an object are in its block, intact and aligned", "statement": "Constructing an SDD node, a sum or a saturation homomorphism writes only inside the memory block allocated for it; the bookkeeping of the library, the fields of the object and the arcs or operands placed behind it do not overwrite each other; iterating on the object gives back exactly the arcs or operands it was built from, whatever their number; and each of them is at an address suitable for its type.", "quantifier": "every memory content, block address, list of alternative types, field types, packed or unpacked layout, and number and content of arcs or operands", "why_tests_cant": "the sizes and numbers are unbounded, an overflow of one byte is usually invisible, and the loss of elements needs more of them than a test can build", "anchors": ["sdd/mem/unique.hh: unique", "sdd/mem/unique_table.hh: allocate", "sdd/mem/variant.hh: variant", "sdd/mem/variant_impl.hh: union_storage", "sdd/dd/node.hh: node, alpha_addr", "sdd/dd/alpha.hh: alpha_builder::size_to_allocate, consolidate", "sdd/hom/consolidate.hh: consolidate", "sdd/hom/sum.hh: _sum", "sdd/hom/saturation_fixpoint.hh: _saturation_fixpoint", "sdd/util/packed.hh"]}
{"id": "C63", "title": "Stored objects compare equal exactly when their contents are equal", "statement": "The comparison by which the library decides that an SDD node, a homomorphism or the key of a cached operation already exists answers true exactly when the two objects are of the same class and have equal members (for cons, equal orders in the sense of C54): distinct sets and distinct homomorphisms are never merged, and an object with the same contents is always found.", "quantifier": "every pair of SDD objects, arcs, operation keys, flat_set values and homomorphisms of the fifteen classes, every user's types whose comparison is an equality", "why_tests_cant": "Every pair of classes and every member must be told apart; a member forgotten in one comparison shows only for two objects that differ by that member alone.", "anchors": ["sdd/dd/node.hh: operator==", "sdd/dd/alpha.hh: arc operator==", "sdd/dd/nary.hh, difference.hh: operator==", "sdd/hom/*.hh: operator==", "sdd/mem/variant.hh: operator==", "sdd/values/flat_set.hh: operator=="]}
{"id": "C64", "title": "Lack of memory leaves the library usable", "statement": "A creation that fails because the allocator refuses memory (std::bad_alloc) has no effect on the values of the handles of the program; afterwards the library can still be used, equal sets still have equal handles, no memory is lost, and a cache whose bookkeeping could not be allocated still answers.", "quantifier": "every history of operations on handles in which any creations fail, at either of the two allocations a creation performs; every state of every cache", "why_tests_cant": "Allocation failures do not occur in tests, and their effects (a node left in the unicity table, a slot lost in a cache) show only after arbitrarily many later operations.", "anchors": ["sdd/mem/hash_table.hh: insert, rehash", "sdd/mem/unique_table.hh: operator(), allocate", "sdd/mem/cache.hh: operator(), pool", "sdd/mem/lru_list.hh", "sdd/dd/definition.hh: unify_node"]}
{"id": "C65", "title": "A session gives the answers that its operations give alone", "statement": "In a program that asks for unions, intersections, differences and applications of homomorphisms in any sequence, clearing the caches when it likes, every answer is right whatever the former operations left in the caches: the operation returns the right set, the same object as the operation run alone without cache when no assignments of the operands clash, or throws top on two incompatible SDDs; an application that ends without cache ends with the same object. It is so for all sizes of caches, all hash functions, all addresses even if they change between two traversals, provided that inductive homomorphisms use nothing but the shape of orders.", "quantifier": "every list of commands on usable SDDs, every size of each cache, every hash function, every family of traversal orders, every well-typed homomorphism whose evaluation ends", "why_tests_cant": "The interplay of eviction, collisions, former results, exceptions and changing addresses depends on the whole history; a test sees one history, one allocator, one hash function.", "anchors": ["sdd/mem/cache.hh: operator(), clear", "sdd/dd/context.hh: clear", "sdd/hom/context.hh: clear", "sdd/manager.hh: reset_hom_cache", "sdd/hom/evaluation.hh: cached_homomorphism", "sdd/dd/sum.hh, intersection.hh, difference.hh: sum, intersection, difference"]}
{"id": "C66", "title": "An evaluation interrupted by an exception leaves the library as good as before", "statement": "User code called by an evaluation (the operator() of a function or of an inductive homomorphism) may throw at any of its calls, as the tests do to interrupt a fixpoint. The exception reaches the caller of the application, and nothing else changes: from the same state the application either throws it or runs exactly as if nothing could throw; a result that is returned in spite of exceptions elsewhere is a right one. Whatever was interrupted before, and even if it would not have ended, every later operation gives the right answer, the same as in any other history; in particular the interrupted application can be asked again.", "quantifier": "every session, every choice of the calls that throw, every well-typed homomorphism even if its evaluation does not end, every size of caches, hash function and family of traversal orders", "why_tests_cant": "An exception can leave any of the nested evaluations, at any call, with caches in any state; what it may leave wrong in a cache shows only in some later operation that finds it.", "anchors": ["sdd/mem/cache.hh: operator()", "sdd/hom/function.hh: operator()", "sdd/hom/inductive.hh: operator()", "sdd/hom/evaluation.hh: evaluation", "tests/hom/test_hom_interrupt.cc"]}
{"id": "C67", "title": "The text of an order is read back as the same order", "statement": "The text written for an order is a JSON document, from which loading makes an order with the same identifiers in the same sequence and the same hierarchies, up to the names of hierarchies. More generally a text is loaded if and only if it is a JSON array, without empty arrays, whose strings and integers are identifiers, and the order is the one that the document describes.", "quantifier": "every order with identifiers that are strings, integers of any width, or characters; every text", "why_tests_cant": "Quotes, backslashes, control characters, null characters, integers at the bounds of types and any nesting of hierarchies are beyond the few orders that tests write.", "anchors": ["sdd/tools/order.hh: dump_order, dump_order_impl, load_order, load_order_impl, mk_order_identifier"]}
{"id": "C68", "title": "The text of an SDD determines it", "statement": "Any SDD can be written in a stream. Two SDDs of which the texts are the same contain the same assignments, even if they were written by two executions of the program; in one execution the texts are the same if and only if the SDDs are equal; and several texts may be written one after the other without losing this. The text of the same set is the same in all executions.", "quantifier": "every SDD, flat or hierarchical, every type of values (sets of signed or unsigned integers, of characters, bitsets, sets of strings), every execution", "why_tests_cant": "Ambiguity of a format is a statement about all pairs of diagrams; a test compares a few. Orders of addresses vary from an execution to another.", "anchors": ["sdd/dd/node.hh: operator<<", "sdd/dd/terminal.hh: operator<<", "sdd/dd/definition.hh: operator<<", "sdd/values/flat_set.hh: operator<<", "sdd/values/bitset.hh: operator<<"]}
{"id": "C69", "title": "Inductive homomorphisms follow their definition, level by level", "statement": "The application of a homomorphism made with inductive(...) to an SDD gives: at the end of the order, what the user's operator()() returns; at a level that the user's skip accepts, the same thing below each path of that level; at any other level, the union, over the sets of values (or nested SDDs) of the level that have the same continuations, of the homomorphism returned by the user's operator() for this set, applied to these continuations. The evaluation ends exactly when all these evaluations end. An inductive homomorphism distributes over unions of SDDs.", "quantifier": "every inductive homomorphism of a user, every order, flat or hierarchical, every SDD of this order, every order of addresses", "why_tests_cant": "The homomorphisms are arbitrary user code applied at all levels of arbitrary diagrams; which sets of values the code sees depends on the whole diagram.", "anchors": ["sdd/hom/inductive.hh: inductive, hierarchical/flat visitors", "sdd/hom/evaluation.hh", "sdd/dd/sum.hh"]}
{"id": "C70", "title": "The dictionary example counts the words of its file", "statement": "For every text file, the program examples/dictionary ends without error, its SDD contains exactly the lines of the file completed with '#' up to the length of the longest one, and it prints the number of distinct words of the file.", "quantifier": "every list of lines, of any lengths, every type of characters, every order of addresses", "why_tests_cant": "There are infinitely many files; the number of words depends on collisions between completed lines that a given file may not show.", "anchors": ["examples/dictionary/dictionary.cc: main", "sdd/dd/definition.hh: SDD(order, init)", "sdd/dd/sum.hh: operator+=", "sdd/dd/count_combinations.hh"]}
{"id": "C71", "title": "The Hanoi example finds the reachable configurations, and counts them", "statement": "For all numbers of rings and poles, the program examples/hanoi ends; the SDD obtained by the rewritten (saturated) fixpoint of the sum of the moves contains exactly the configurations that can be reached from the one where all the rings are on the first pole by moving one ring at a time, never on a smaller one; the number printed is poles^rings with three poles or more (2 with two poles and at least one ring, otherwise 1).", "quantifier": "all numbers of rings and of poles, all orders of addresses of sets, SDDs and homomorphisms", "why_tests_cant": "The state space grows exponentially and the numbers are unbounded; the result of saturation depends on orders of addresses.", "anchors": ["examples/hanoi/hanoi.cc: no_ring_above, swap_pole, main", "sdd/hom/rewrite.hh", "sdd/hom/fixpoint.hh", "sdd/hom/inductive.hh"]}
{"id": "C72", "title": "Iterators of hash maps are used while they are valid", "statement": "The functions of the library that keep an iterator of a std::unordered_map while they insert in this map - unions, at every depth, size() and the export to DOT - never use an iterator that a rehash has invalidated, so that their results do not depend on how the implementation of the standard library grows its hash maps.", "quantifier": "every way of growing hash maps that the standard allows, all operands of +, & and -, every SDD, both orders of evaluation of the compound assignments of size()", "why_tests_cant": "The use of an invalidated iterator is undefined behaviour that usually goes unnoticed; when maps are rehashed depends on the implementation of the standard library and on the number of elements.", "anchors": ["sdd/dd/sum.hh: sum_op_impl::work (res_end)", "sdd/dd/count_combinations.hh: count_combinations_visitor", "sdd/tools/dot/sdd.hh: to_dot_visitor"]}
{"id": "C73", "title": "Caches bound the cost of operations by the product of the sizes", "statement": "On diagrams without hierarchy that follow the same order, with caches large enough to keep them, the evaluations of x + y, x & y and x - y compute at most one operation for each pair of a node of x and a node of y on the same variable, however often they are repeated: the statistics of the caches count no more misses than |x| * |y| and no discarded entry. In general, an operation that a cache is large enough to keep is evaluated at most once.", "quantifier": "all diagrams without hierarchy that follow the same order, all sequences of unions, intersections and differences of them, any hash function, order of addresses, iteration order of hash maps and representation of values, all capacities that are large enough", "why_tests_cant": "A cost that is exponential for some diagrams is not seen on others; the bound must hold for every diagram and every schedule of the hash maps.", "anchors": ["sdd/mem/cache.hh: cache::operator()", "sdd/dd/sum.hh: sum_op_impl::work", "sdd/dd/intersection.hh: intersection_op_impl::work", "sdd/dd/difference.hh: difference_visitor", "sdd/dd/context.hh: context"]}
{"id": "C74", "title": "The text of an order", "statement": "Writing an order on a stream gives one line for each of its variables, in the order of positions: two spaces for each enclosing hierarchy, the identifier and the variable in parentheses. Two orders with the same text are the same.", "quantifier": "all orders, all types of identifiers and their operator<<; the second part fails for identifiers with line breaks or that look like artificial ones", "why_tests_cant": "Injectivity compares all pairs of orders.", "anchors": ["sdd/order/order.hh: operator<<", "sdd/order/order_identifier.hh: operator<<"]}
{"id": "C75", "title": "The variables of a level fit in their type", "statement": "Two identifiers of the same level of an order never get the same variable, whatever integer type the configuration chooses for variables. As long as each level has no more identifiers than this type has values, the order is the one of unbounded integers.", "quantifier": "all orders, all sizes of the integer type of variables and of positions; the first part fails for longer levels", "why_tests_cant": "Ranges over all orders and all integer types; a wrapped variable raises no error.", "anchors": ["sdd/order/order.hh: mk_nodes_ptr", "sdd/conf/default_configurations.hh: variable_type"]}
{"id": "C76", "title": "flat_sets are values: == compares sets, operations on one variable leave the others alone", "statement": "In a program that constructs, copies, moves, assigns, modifies (insert, erase), combines (sum, intersection, difference), swaps and destroys variables of type flat_set, every operation returns what it returns on mathematical sets; two variables are == exactly when they hold the same set, however each was built, although == only compares pointers; no operation on a variable changes another one; nothing freed is used; and a set that no variable holds any more is no longer in memory, except the empty set.", "quantifier": "all programs (sequences of operations), all types of values with a total order, all hash functions, all initial sizes of the unicity table, all allocators; v = v on the only holder of a non-empty set excluded, for which it is false", "why_tests_cant": "Ranges over all histories of operations on shared reference-counted data and all behaviours of the allocator.", "anchors": ["sdd/values/flat_set.hh: flat_set, create, unify, insert, erase, operator==, difference, intersection, sum, flat_set_manager", "sdd/mem/ptr.hh: ptr", "sdd/mem/unique_table.hh: unique_table"]}
{"id": "C77", "title": "The program scheduling finds the schedulings of a set of tasks", "statement": "On a set of tasks (release, duration, deadline, dependencies) and a number of cores, the program examples/scheduling ends and prints the number of the schedulings of all the tasks: those that are obtained by giving, one after the other, a task whose dependencies are scheduled to a core where it meets its deadline. A core runs one task at a time, each task runs between its release and its deadline, and after the tasks it depends on.", "quantifier": "all sets of tasks whose times fit 32 bits, all numbers of cores, all orders of the variables; the program finds only a part of the schedulings, and the last part fails for dependencies on another core; both hold with one core", "why_tests_cant": "Ranges over all sets of tasks; the expected number is not known for other than tiny ones, and the bug in the filters makes the number too small without any error.", "anchors": ["examples/scheduling/scheduling.cpp: main", "examples/scheduling/Schedulers.hpp: schedule, schedule_tau", "examples/scheduling/Filters.hpp: filter_constant, filter_constraints", "examples/scheduling/TaskModel.hpp: TaskModel"]}
{"id": "C78", "title": "The order of the tasks follows their dependencies", "statement": "TaskModel::build_order returns every task exactly once, after the tasks it depends on, if the dependencies have no cycle.", "quantifier": "all sets of tasks, all orders of iteration of std::unordered_set; fails: an erased iterator is read, and a chain of three tasks can be returned out of order", "why_tests_cant": "Ranges over all dependency graphs and all orders of iteration of a hash table.", "anchors": ["examples/scheduling/TaskModel.hpp: build_order"]}
{"id": "C79", "title": "The text of a homomorphism determines it", "statement": "Two homomorphisms written in the same way by operator<< are equal, up to the grouping of compositions, and the parentheses of the text match.", "quantifier": "all homomorphisms, rewritten or not, all texts of the values, identifiers, functions and inductives of the user of which the end can be found; fails for conses on different orders and for saturation homomorphisms", "why_tests_cant": "Ranges over all pairs of homomorphisms; a test compares a few texts with expected strings.", "anchors": ["sdd/hom/definition.hh: operator<<(std::ostream&, const homomorphism&)", "sdd/hom/composition.hh, cons.hh, constant.hh, fixpoint.hh, function.hh, identity.hh, if_then_else.hh, inductive.hh, intersection.hh, local.hh, sum.hh: operator<<", "sdd/hom/saturation_fixpoint.hh, saturation_intersection.hh, saturation_sum.hh: operator<<"]}
{"id": "C80", "title": "The order found by FORCE depends on the hypergraph only", "statement": "Building a hypergraph by the same calls and applying the strategy with the same number of iterations gives the same order and the same spans, whatever hypergraphs were built or ordered before.", "quantifier": "all hypergraphs, iteration counts, numbers of vertices of earlier hypergraphs and deterministic sorts; fails when weights differ or an identifier is in no hyperedge, and when the same hypergraph is ordered twice", "why_tests_cant": "Ranges over all histories of the program and all hypergraphs; a test starts from a given history.", "anchors": ["sdd/order/strategies/force_hypergraph.hh: hypergraph (static location)", "sdd/order/strategies/force.hh: worker::operator()"]}
{"id": "C81", "title": "Sums computed by FORCE fit in their type", "statement": "No hypergraph makes the strategy compute a sum that does not fit in the type of its accumulator; the order is the one of exact arithmetic.", "quantifier": "all hypergraphs, iteration counts and histories; fails from 65537 identifiers in one hyperedge, or after 2^30 identifiers", "why_tests_cant": "Ranges over all sizes, of which a test tries a few small ones.", "anchors": ["sdd/order/strategies/force_hyperedge.hh: compute_center_of_gravity", "sdd/order/strategies/force.hh: worker::operator(), get_total_span", "sdd/order/strategies/force_hypergraph.hh: hypergraph"]}
{"id": "C82", "title": "The DOT export of a hypergraph draws it", "statement": "The export has one node for each identifier and one for each hyperedge that is not empty, all with different names that DOT accepts, and one link for each identifier of each hyperedge; hypergraphs with the same export have the same identifiers and hyperedges.", "quantifier": "all hypergraphs, texts of identifiers and addresses of hyperedges; fails for weights, for identifiers on several lines, and for names with other characters than letters, digits and underscores", "why_tests_cant": "Ranges over all pairs of hypergraphs and all identifiers.", "anchors": ["sdd/tools/dot/force_hypergraph.hh: operator<<(std::ostream&, const force_hypergraph_to_dot&)"]}
{"id": "C83", "title": "Parts of a homomorphism may be replaced by equivalent ones", "statement": "If two homomorphisms skip the same levels, are both selectors or not, apply to the same diagrams and give the same results, then replacing one by the other anywhere inside a homomorphism changes no result, and makes no evaluation end or stop ending. In particular compositions may be grouped in any way, a fixpoint of a fixpoint is this fixpoint, and homomorphisms with the same text give the same results. The skipped levels matter: with the same results only, an intersection may not end any more.", "quantifier": "all homomorphisms, places of replacement, orders and diagrams to which they apply", "why_tests_cant": "Ranges over all contexts, homomorphisms, orders and diagrams, and over evaluations that do not end.", "anchors": ["sdd/hom/evaluation.hh: evaluation", "sdd/hom/composition.hh: _composition", "sdd/hom/local.hh: _local", "sdd/hom/intersection.hh: _intersection", "sdd/hom/saturation_fixpoint.hh: _saturation_fixpoint"]}
{"id": "C84", "title": "The DOT export of an SDD names its levels, and determines it", "statement": "The DOT export of an SDD x that follows an order o ends without error; it declares the terminals and nodes reachable from x, each once and under a name of its own; it labels every node with the identifier of its level in o, and draws every arc. Two SDDs on the same order whose exports are the same text, even made by different executions, contain the same assignments.", "quantifier": "all orders and SDDs that follow them, all addresses of nodes, all ways to write identifiers and values on one line", "why_tests_cant": "All diagrams with any sharing between levels and hierarchies, all placements of nodes in memory.", "anchors": ["sdd/tools/dot/sdd.hh to_dot_visitor", "sdd/tools/dot/sdd.hh dot", "sdd/order/order.hh identifier, next, nested"]}
{"id": "C85", "title": "The text of the DOT export of a homomorphism determines it", "statement": "In the text of the DOT export of a homomorphism, there is a line for each operation with the label of its class, and a line for each operand of it with the label of its role; every name at an end of an edge is declared, and the names that are declared are all different. Two homomorphisms whose exports are the same text, even made by different executions, are the same homomorphism.", "quantifier": "all homomorphisms, all addresses of operations, all values of the counter of identities, all ways to write the functions of the user on one line", "why_tests_cant": "All nestings and sharings of operations, all placements of operations in memory.", "anchors": ["sdd/tools/dot/homomorphism.hh hom_to_dot_visitor", "sdd/tools/dot/homomorphism.hh dot", "sdd/hom/function.hh operator<<"]}
{"id": "C86", "title": "Hierarchies made by strategies have identifiers of their own", "statement": "The strategy that limits the number of identifiers per hierarchy gives each hierarchy it makes an identifier different from those of the user and from those of the other hierarchies, whatever orders the program built before; an order can be built from the result if one can be built from the identifiers of the user. So does the loading of a saved order. Applied twice to the same builder, it gives orders that are not equal.", "quantifier": "all builders, all limits from two on, all histories of constructions of orders; the first parts fail once 2^32 nodes of orders and hierarchies have been made", "why_tests_cant": "Depends on a static counter, hence on everything the program did before; it wraps after 2^32 constructions.", "anchors": ["sdd/order/order_identifier.hh next_artificial", "sdd/order/order_node.hh order_node", "sdd/order/order.hh mk_nodes_ptr", "sdd/order/strategies/identifiers_per_hierarchy.hh operator()", "sdd/tools/order.hh load_order"]}
