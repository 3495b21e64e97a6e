# generates /verif/properties.jsonl (kept in the repo so that the list is easy to extend)
import json
P=[]
def p(title,statement,quantifier,why,anchors):
    P.append(dict(id="C%02d"%(len(P)+1),title=title,statement=statement,quantifier=quantifier,why_tests_cant=why,anchors=anchors))
U="utilities/"; A="analyze/"; B="base/cpp/"; S="parse/"
p("next_twin_prime returns the least twin prime",
  "next_twin_prime(x) returns the least r >= x such that r and r-2 are both prime, whatever calls were made before (the cached sieve never changes the answer), and it does return for every x between 0 and 1000000009.",
  "every argument 0 <= x <= 1000000009 and every history of earlier calls",
  "the answer depends on a cache built by all previous calls and the argument range has a billion values",
  [U+"prime.c: next_twin_prime, sieve_of_eratosthenes"])
p("next_twin_prime on a negative argument never returns",
  "A call next_twin_prime(x) with x < 0 never returns a value: the sieve is doubled until the int arithmetic overflows.",
  "every negative argument and every history of earlier calls",
  "non-return cannot be observed by a test",
  [U+"prime.c: next_twin_prime"])
p("The linked stack is a LIFO stack and destroys cleanly",
  "Every sequence of push/pop/is_empty calls on a created stack answers like a mathematical stack; no call touches freed memory, and stack_destroy leaves no cell of the stack allocated and frees none twice.",
  "every sequence of stack operations, over any number of stacks sharing the allocator",
  "unbounded sequences and heap states",
  [U+"stack.c: stack_create, stack_push, stack_pop, stack_is_empty, stack_destroy"])
p("The hash table is a finite map for insert/update/lookup",
  "For every hash function and every equality consistent with it, after any sequence of hash_table_add_or_update calls, hash_table_get returns the value of the latest add with an equal key (NULL if none), hash_table_contains answers whether one was made, and table->size is the number of distinct keys.",
  "every hash/equality pair, every initial capacity up to 1000000009, every sequence of adds and lookups, across any number of resizes",
  "collisions, probe sequences and resizes depend on the whole history and on the hash function",
  [U+"hashtable.c: hash_table_initialize, hash_table_add_or_update, hash_table_get, hash_table_contains, hash_table_resize"])
p("Hash table operations terminate without undefined behaviour",
  "In the same histories (fewer than 250000000 entries) every probe loop ends, no array index is out of bounds, no int overflows, and the table stays at most half full with a prime capacity.",
  "every hash function, every history of adds and lookups",
  "an infinite probe loop shows up only for particular hash values, capacities and fill patterns",
  [U+"hashtable.c: hash_table_candidate_index, hash_table_resize"])
p("Removing an entry removes exactly that entry",
  "hash_table_remove(k) returns whether k was present, afterwards k is absent and every other key keeps its value. (False in general of the code: the probe chain of other keys is cut; proved only for the removed key itself.)",
  "every add history followed by a removal",
  "the loss depends on collisions; the shipped unit test removes keys that never collide",
  [U+"hashtable.c: hash_table_remove"])
p("The NULL key is never present in a hash table",
  "Because hash_table_add_or_update rejects NULL, hash_table_contains(NULL) is false, hash_table_remove(NULL) returns false and table->size never goes negative. (False of the code with ptr_equalf.) A table that was cleared can be used again. (False of the code: division by zero or double free.)",
  "every table state reachable by adds",
  "boundary behaviour on inputs that no test passes",
  [U+"hashtable.c: hash_table_contains, hash_table_remove, hash_table_clear, ptr_equalf"])
p("Hash consing returns one object per equivalence class",
  "Two hash_cons_get calls on the same table return the same pointer if and only if their items are equal under the table's equality; the returned object is equal to the item passed.",
  "every hash/equality pair and every sequence of hash_cons_get calls, across resizes",
  "depends on collisions, growth and the complete history",
  [U+"hashcons.c: hash_cons_get, hc_resize, hc_candidate_index"])
p("Hash-consed objects are stable",
  "An object once returned by hash_cons_get keeps its address and contents for ever: no later call, including one that grows the table, moves, frees or overwrites it.",
  "every later sequence of hash_cons_get calls",
  "unbounded histories",
  [U+"hashcons.c: hash_cons_get, hc_resize"])
p("Hash-consed sets are canonical under union and add",
  "For hash-consed sets of addresses below 2^63, union_hash_const_set and add_hash_cons_set return the hash-consed set whose elements are exactly the set union, strictly sorted, so two such sets with the same members are the same pointer. (For addresses at or above 2^63 built by new_hash_cons_set this fails: the two functions use different orders.)",
  "every pair of reachable sets and every element",
  "all sizes, all overlaps of the two inputs, all histories of the table",
  [U+"hashcons.c: union_hash_const_set, add_hash_cons_set, get_hash_cons_empty_set"])
p("new_hash_cons_set sorts its argument",
  "new_hash_cons_set returns a set whose element array is the sorted permutation of the argument's, so any two permutations of the same elements give the same pointer. It does not drop duplicates, so a list with a repeated element is not identified with the same set without the repetition.",
  "every element array",
  "all arrays of all lengths",
  [U+"hashcons.c: new_hash_cons_set"])
p("SCC components are the classes of mutual reachability",
  "scc_graph_components returns every added vertex in exactly one component, and two vertices share a component if and only if each can reach the other through added edges.",
  "every graph: any number of vertices, any vertex addresses, any edge sequence",
  "the number of graphs is unbounded; tests cover chains and cycles only",
  [U+"scc.c: scc_graph_components, dfs, dfs_collect_scc, transpose_graph"])
p("SCC components come in topological order",
  "If there is an edge from a vertex in component A to a vertex in a different component B, then A precedes B in the result.",
  "every graph",
  "the number of graphs is unbounded",
  [U+"scc.c: scc_graph_components, dfs"])
p("SCC graph construction rejects bad input",
  "Adding more than the declared number of vertices, the same vertex twice, or an edge with an unknown end point exits; otherwise the edge is recorded exactly. Asking for components of a graph with no vertices exits; asking before all declared vertices were added reads uninitialised memory.",
  "every sequence of graph construction calls",
  "all interleavings of vertex and edge insertion and all addresses",
  [U+"scc.c: scc_graph_add_vertex, scc_graph_add_edge, get_vertex_index_from_ptr"])
p("hash_string and hash_mix are total",
  "hash_string and hash_mix return a value for every argument. (False of the code: signed overflow; proved within stated bounds, and that the result is the polynomial hash.)",
  "every string",
  "overflow needs long strings; the result with wrap-around looks normal",
  [U+"hashcons.c: hash_string, hash_mix"])
p("Ordered collections read like the sequence they were built from",
  "For any nesting of append/single/none, length, empty, nth, nth_from_end, position and member answer as for the flattened sequence, and out-of-range indices raise out_of_range.",
  "every collection shape, every index and element",
  "same sequence has unboundedly many tree shapes",
  [B+"basic.handcode.h: COLL::length, nth, nth_from_end, position, position_from_end, member"])
p("subseq and butsubseq select and delete ranges",
  "For 0 <= start <= finish, subseq(l,start,finish) has exactly the elements at positions start..finish-1 and butsubseq the others, in order, for every tree shape; butsubseq_from_end with finish <= length deletes the mirrored range (and with finish > length does not).",
  "every collection shape and every pair of bounds",
  "interaction of tree shape with bounds",
  [B+"basic.handcode.h: COLL::subseq, butsubseq, butsubseq_from_end"])
p("Collection equality is equality of sequences",
  "LIST$equal(l1,l2) is true exactly when the flattened sequences have the same length and pairwise equal elements, independent of tree shapes; it terminates.",
  "every pair of collections and every element equality",
  "pairs of shapes are unbounded",
  [B+"basic.handcode.h: COLL::equal"])
p("SET operations implement set algebra",
  "member(x, union/intersect/difference(s1,s2)) is the disjunction / conjunction / and-not of the memberships; less_equal and equal are inclusion and equality of the represented sets, for element equality that is an equivalence.",
  "every pair of sets in any tree shape, every element",
  "unbounded shapes and duplicates",
  [B+"basic.handcode.h: C_SET::v_union, v_intersect, v_difference, v_less_equal, v_equal, v_less"])
p("SET union introduces no duplicates",
  "If neither argument holds two equal elements, neither does the union (nor intersection, nor difference).",
  "every pair of duplicate-free sets",
  "unbounded shapes",
  [B+"basic.handcode.h: C_SET::v_union"])
p("Integer$string is the decimal numeral",
  "For every int except INT_MIN, string(x) is the canonical decimal numeral of x (sign, no leading zeros), so distinct ints give distinct strings; for INT_MIN the code overflows.",
  "every 32-bit int",
  "2^32 inputs and a single failing one",
  [B+"basic.handcode.cpp: C_INTEGER::v_string"])
p("String subsequences agree with list subsequences",
  "String$subseq / butsubseq and the from_end versions select the same positions as the LIST versions. (True of butsubseq; false of subseq, subseq_from_end and butsubseq_from_end.)",
  "every string and pair of bounds",
  "agreement must hold for all bounds; subseq is right whenever start is 0",
  [B+"aps-impl.h: C_STRING::v_subseq", B+"basic.handcode.cpp: C_STRING::v_subseq_from_end, v_butsubseq, v_butsubseq_from_end"])
p("TABLE combine/select is a per-key fold",
  "Selecting key k from a table built by combining entries yields the fold of combine, starting at the value type's initial, over the contributions made to k in order. combine leaves its arguments' meaning unchanged. (The latter is false of the code when the first argument is already a full table.)",
  "every tree of combine calls, every key and value",
  "aliasing appears only when an intermediate table is used twice",
  [B+"table.handcode.h: C_TABLE::v_combine, v_select, V_full_table::add, get"])
p("Phylum registration numbers nodes consecutively",
  "Nodes of a phylum get indices 0,1,2,... in creation order, node(i) returns the node with index i, and after size() or finish() creating a node throws; constructor tags must be declared in order.",
  "every sequence of node creations, size/finish and lookups",
  "histories are unbounded",
  [B+"aps-impl.cpp: Phylum::install, Phylum::size, Phylum::node, Type::install, Constructor::Constructor"])
p("Demand evaluation gives every attribute its defining value, once",
  "For every attribute grammar instance whose dependency graph is acyclic, whatever the order of evaluate calls, each evaluate returns the value determined by the equations, and each attribute instance's compute runs at most once.",
  "every dependency graph, every computation over demanded values, every order of demands",
  "evaluation orders and graphs are unbounded",
  [B+"aps-impl.h: Attribute::evaluate, get, finish"])
p("Cyclic demands are reported, never answered",
  "If evaluating a (non-circular) attribute instance demands itself, CyclicAttributeException is thrown and no value is returned; an evaluate that returns a value never passed through a cycle.",
  "every dependency graph and every demand order",
  "graphs are unbounded",
  [B+"aps-impl.h: Attribute::evaluate, cycle_evaluate"])
p("Assignment is rejected once evaluation has started",
  "assign succeeds exactly until the first evaluate of that attribute; afterwards it throws and changes nothing; an assigned value is what evaluate returns and compute is not run for it.",
  "every interleaving of assign and evaluate calls",
  "interleavings are unbounded",
  [B+"aps-impl.h: Attribute::assign, set, evaluate"])
p("Collection attributes fold all contributions",
  "Reading a collection attribute of a node gives the combine-fold, from the initial value, of exactly the contributions set on that node, in order.",
  "every sequence of contributions over any nodes",
  "histories are unbounded",
  [B+"aps-impl.h: Collection::set, get_default"])
p("Circular attributes reach the least fixed point",
  "For monotone equations over a lattice without infinite ascending chains, evaluate on a circular attribute returns its component of the least fixed point. (False of the code: only the attribute instances that close a cycle are iterated.)",
  "every monotone equation system",
  "needs a lattice-wide argument; the code is right on one-node cycles",
  [B+"aps-impl.h: CircularAttribute::evaluate, cycle_evaluate, TypedCircular::eval_changed", B+"aps-impl.cpp: Circular::clear_pending"])
p("Circular iteration is inflationary and stops only at a fixed point",
  "clear_pending only moves pending values upwards in the lattice and returns only when no pending instance would change.",
  "every set of pending instances and every lattice",
  "unbounded iterations",
  [B+"aps-impl.cpp: Circular::clear_pending", B+"aps-impl.h: TypedCircular::eval_changed"])
p("Arena allocations are aligned, in bounds and disjoint",
  "HALLOC/SALLOC(n) with 0 <= n < BLOCKSIZE returns a block of n bytes, 8-byte aligned, inside one malloc'ed block and disjoint from every other live allocation; larger requests exit.",
  "every sequence of allocation sizes",
  "unbounded request sequences; block boundaries are hit rarely",
  [S+"jbb-alloc.h: ALLOC, ALIGN, HALLOC, SALLOC", S+"alloc.c: more_heap, more_stack, add_block"])
p("release rewinds the temporary stack to its mark",
  "After release(m) for a mark m returned by SALLOC, exactly the allocations made since m are dead, older ones are untouched, and subsequent allocations never overlap live ones.",
  "every sequence of SALLOC and properly nested releases",
  "interactions with block boundaries and block reuse",
  [S+"alloc.c: release, release_to_block, add_block"])
p("Symbols are interned",
  "intern_symbol(s) and intern_symbol(t) return the same symbol exactly when s and t are equal strings; symbol_name/id are inverse to intern/id_symbol; gensym returns a symbol not interned before; the 4001st symbol exits.",
  "every sequence of intern/find/gensym calls",
  "unbounded histories",
  [S+"symbol.c: intern_symbol, find_symbol, add_symbol, symbol_id, id_symbol, gensym"])
p("Rope strings denote their concatenation",
  "string_length, realize_string and print_string of a string built with make_string/conc_string agree with the concatenation of the parts (length excludes the terminator, realize never writes past length+1); substitute_string replaces exactly the occurrences of the stub.",
  "every rope shape",
  "unbounded nesting and sharing",
  [S+"string.c: conc_string, string_length, realize_string, print_string, substitute_string"])
p("make_integer_string denotes the numeral",
  "make_integer_string(n,base) denotes n in the given base. (False of the code: it is tagged as a constant string, so reading it dereferences an unrelated word; the digit routines would also reverse the digits and drop zero.)",
  "every int and base 2..36",
  "one wrong tag is invisible until the string is read",
  [S+"string.c: make_integer_string, realize_integer_string, digits"])
p("Association tables are maps with overwrite",
  "table_get returns the value of the latest table_set with the same key, NULL if none; the association list never holds a key twice; rassoc returns a key mapped to the value.",
  "every sequence of table_set/table_get",
  "unbounded histories",
  [A+"table.c", A+"alist.c"])
p("Condition comparison is exact",
  "cond_compare of two satisfiable conditions returns eq/lt/gt exactly when they hold of the same / fewer / more truth assignments, and comp exactly when their union is again a condition with one test dropped.",
  "all pairs of conditions over 32 if-rules and all truth assignments",
  "2^128 pairs of conditions",
  [A+"aps-cond.c: cond_compare"])
p("Dependency kinds form an idempotent semiring-like algebra",
  "dependency_join is a semilattice with no_dependency as unit, dependency_trans is associative, commutative, monotone, distributes over join and is annihilated by no_dependency, never yields a direct dependency, and dependency_indirect only removes the direct bit.",
  "all pairs and triples of kinds",
  "needed for every closure order to give the same result",
  [A+"aps-dnc.c: dependency_join, dependency_trans, dependency_indirect"])
p("Adding an edge changes the edge set's meaning by exactly that edge",
  "After add_edge(cond,kind) the joined kind seen under each truth assignment is the old one joined with kind if the assignment satisfies cond, unchanged otherwise, however edges are merged, dropped or split.",
  "every edge set, condition, kind and truth assignment",
  "merging complementary conditions must be right for every combination",
  [A+"aps-dnc.c: add_edge, edgeset_kind, edgeset_lowerbound, edge_present"])
p("The edge worklist is a faithful queue",
  "add_to_worklist / remove_from_worklist / taking the head keep head, tail and links consistent: the list holds each edge at most once, in insertion order, a removed (freed) edge is never visited, and no call reports corruption.",
  "every sequence of worklist operations",
  "pointer-structure corruption needs particular interleavings",
  [A+"aps-dnc.c: add_to_worklist, remove_from_worklist, new_edgeset, free_edge, close_augmented_dependency_graph"])
p("Summary graph closure is the least transitive closure",
  "close_summary_dependency_graph terminates, its result contains the input, is closed under dependency_trans, is contained in every closed graph containing the input, and it returns TRUE exactly if something changed.",
  "every square matrix of kinds",
  "unbounded sizes; in-place update order",
  [A+"aps-dnc.c: close_summary_dependency_graph"])
p("Augmented graph closure is transitive under every condition",
  "When close_augmented_dependency_graph's worklist empties, for every truth assignment and any i,j,k the kind i->k is at least trans(kind i->j, kind j->k), nothing is added that is not derivable, and the loop terminates.",
  "every graph, every initial edge set, every truth assignment",
  "2^32 assignments per graph and unbounded graphs",
  [A+"aps-dnc.c: close_augmented_dependency_graph, close_using_edge, add_transitive_edge_to_graph"])
p("DNC iteration stops at a synchronised fixed point",
  "When dnc_close returns, every production graph and every summary graph is transitively closed and each node's part of a production graph agrees with the summary graph of its phylum.",
  "every grammar",
  "depends on the interplay of all productions and phyla",
  [A+"aps-dnc.c: dnc_close, synchronize_dependency_graphs, augment_dependency_graph"])
p("The DNC test is sound for every tree",
  "After dnc_close, every dependency path between two attribute instances in any syntax tree (under any outcome of the conditions) is covered by the computed graphs; so if analysis_state_cycle reports no dependency, no tree has a cyclic attribute dependency.",
  "every grammar, every finite syntax tree, every outcome of the conditions in it",
  "trees are unbounded",
  [A+"aps-dnc.c: dnc_close, analysis_state_cycle"])
p("Fiber cycles are the classes of the merged relation",
  "The cycle finder, run on the closed dependency graphs, terminates without undefined behaviour for either evaluation order; an attribute instance is in some cycle exactly if it depends on itself, never in two; two instances are in one cycle exactly when a chain of mutual dependencies (or of the same attribute at a node and its phylum) connects them; the kind of a cycle is the join of its instances' self-dependencies.",
  "every analysed grammar and both evaluation orders",
  "path compression makes the array history dependent",
  [A+"aps-cycle.c: get_set, merge_sets, get_fiber_cycles"])
p("Summary schedules respect dependencies",
  "If schedule_summary_dependency_graph returns, every instance has a phase, inherited ones negative and synthesized ones positive, and every dependency goes from an earlier or equal position of -1,+1,-2,+2,... ; if the graph restricted to it has a cycle or a local instance it stops with an error instead of looping.",
  "every summary graph",
  "unbounded graphs",
  [A+"aps-oag.c: schedule_summary_dependency_graph"])
p("Conditional total orders are complete and ordered",
  "In the tree built by schedule_rest, along every outcome of the conditions each instance whose condition holds occurs exactly once, no instance occurs that the tests made before it on the way rule out (nor any whose condition fails, if instances depend on the tests of their conditions), and every edge whose condition can still hold points forward. The order is found whenever no outcome gives a cycle and conditional dependencies wait for their tests; otherwise the program stops with an error rather than looping.",
  "every augmented graph and every path through the conditional order",
  "exponentially many paths",
  [A+"aps-oag.c: schedule_rest, schedule_augmented_dependency_graph"])
p("Up/down construction removes the cycles it breaks",
  "After add_up_down_attributes, no two instances of a broken cycle depend on each other in both directions inside a summary or production graph: within the cycle only edges in the chosen direction remain, no other dependency is lost, what one instance of a cycle depends on (or is needed by) all of it does, and nothing else is added. (With edges under opposite conditions the code joins the masks, and a dependency of one instance is not passed to the rest of its cycle.)",
  "every grammar, every assignment of directions, every set of cycles found",
  "unbounded graphs and interactions between cycles",
  [A+"aps-cycle.c: add_up_down_attributes"])
p("Component circularity flags are exact",
  "set_phylum_graph_components marks a component circular exactly when one of its instances depends on itself; for a transitively closed summary graph that is exactly when the component lies on a dependency cycle.",
  "every summary graph",
  "unbounded graphs",
  [A+"aps-scc.c: set_phylum_graph_components, set_aug_graph_components"])
p("Printed collections show the first five elements",
  "string(collection) is the elements' strings in order, separated by commas, inside braces; at most five are shown, and dots appear exactly when elements were left out. (With exactly five elements the code may print dots although nothing is left out.)",
  "every collection tree and every element printer",
  "unbounded trees of every shape, with empty leaves in any place",
  ["base/cpp/basic.handcode.h: COLL::to_string"])
p("Integer ranges enumerate the interval",
  "x..y is the list x, x+1, ..., y (empty if x > y). (True for 0 <= x and y <= 2^30; for every negative x and y > x the recursion never ends, because division truncates toward zero.)",
  "all ints x and y",
  "all pairs of ints; the failing ones do not terminate",
  ["base/basic.aps: function (..)", "base/cpp/basic.handcode.h: C_INTEGER::v_divide"])
p("Positions counted from the end, and strings as sequences",
  "position_from_end(x,l) is the distance from the end of the last element equal to x, -1 if none; strings answer nth, nth_from_end, position and member like the sequence of their characters. (position_from_end is false of the code: lists mirror the first occurrence, strings report the distance from the start.)",
  "every list, string, element and index",
  "unbounded sequences",
  ["base/cpp/basic.handcode.h: COLL::position_from_end", "base/cpp/aps-impl.h: C_STRING"])
p("Breaking the fiber cycles leaves no cycle",
  "After break_fiber_cycles (find the cycles, add up/down attributes, close again) the analysis reports no fiber cycle. (False of the code: an instance that was in no cycle can become circular.)",
  "every grammar with fiber cycles only",
  "unbounded graphs; the closure runs again after the cycles are broken",
  [A+"aps-cycle.c: break_fiber_cycles, add_up_down_attributes"])
p("The fiber automaton has the edges added to it",
  "Every history of numbering declarations and expressions and adding edges gives an automaton with exactly those edges, each once, and the numbered declarations as its final nodes; its epsilon closure computes exactly the nodes from which the given ones are reached without reading. (The tables have a fixed size that is not checked: with 899 declarations the construction reads out of bounds.)",
  "every history of add_FSA_edge, id_decl_node and id_expr_node calls, every set of nodes",
  "unbounded graphs with cycles; the size limit is far above test programs",
  [A+"aps-fiber.c: add_FSA_edge, id_decl_node, id_expr_node, beclose, makeDFA"])
p("The states of the fiber automaton are the fibers",
  "makeDFA stops; each state stands for a different word of fields and reversed fields and consists of exactly the nodes that have this fiber, with the direction given by the number of reversals; no fiber is lengthened into a state it went through, entered the same way; it gives up only if there are a thousand different fibers.",
  "every automaton that fits, every list of fields",
  "fibers are unbounded words; termination depends on the cycle test",
  [A+"aps-fiber.c: makeDFA, makeNode, check_transition, get_same, same_DFA_node, is_reachable"])
p("Lengthening a fiber finds the longer fiber",
  "The fiber that dep_modifier_fiber finds for modifiers dm from a fiber v is the state of dm.v, and if both nodes of something have it (and each fiber on the way) it is found. (False of the code when two fields lead to the same state: the table keeps one label for a pair of states, so in a list linked both ways next.next is lost.)",
  "every automaton and every list of modifiers",
  "unbounded words; the loss needs two fields with the same target state",
  [A+"aps-fiber.c: check_transition, longer", A+"aps-dnc.c: dep_modifier_fiber"])
p("Final fiber sets are the common fibers of both nodes",
  "The normal and reverse final fiber sets of a declaration are exactly the fibers of the automaton that both its nodes have, by direction; every such fiber is represented, provided the fibers on the way to it are in some set.",
  "every automaton and every declaration",
  "fibers are unbounded words",
  [A+"aps-fiber.c: DFA_fiber_set, makeDFA"])
p("Phases of a phylum with circular attributes",
  "Computing the phases of a phylum stops; it succeeds exactly if every local or cyclic attribute belongs to a group of mutually dependent attributes one of which depends on itself. Then every attribute has a phase, negative exactly if inherited; nothing comes before what it needs except within a circular group; a circular phase holds exactly one circular group; the first and last phase and one of any two neighbours are not circular; exactly the phases without attributes are marked empty, and they only surround circular ones; attributes outside the groups get dependencies on everything in earlier visits. (False of the code when more than n phases are needed for n attributes: the tables have n+1 entries and are overrun.)",
  "every summary graph of n > 0 attributes with every assignment of directions, every state of the prime sieve",
  "graphs with any number of groups; the overrun is a byte past a heap block and goes unnoticed",
  [A+"aps-schedule.c: schedule_summary_dependency_graph, schedule_phase_circular, schedule_phase_non_circular, instance_in_phylum_cycle"])
p("Chunks of a rule and the order between them",
  "The instances of a rule are divided into chunks: the inherited and the synthesized attributes of each visit of the node, each visit of each child with its attributes, each local; every instance is in exactly one. The dependencies between chunks are exactly the transitive closure of: an instance of one is needed by one of the other (for compatible outcomes of the tests), earlier visits come before later ones, inherited before synthesized; the components of this graph are its strongly connected components, in order. (False of the code for rules with more than ten chunks per instance: the table has a fixed size and is overrun.)",
  "every rule: any instances, conditions, dependencies, children and phases",
  "graphs of unbounded size; the overrun needs many children with few attributes",
  [A+"aps-schedule.c: collect_aug_graph_chunks"])
p("What the checks on total orders guarantee",
  "A total order that passes assert_total_order is well linked; whatever the outcomes of the tests, nothing is computed twice, the visits of a child are made in order (except within one component), in a circular visit of the node only circular visits of children are made and only attributes that depend on themselves are computed, the visit of a child directly follows one of its inherited attributes of that phase and is directly followed by one of its synthesized ones if there are any; every visit is made for some outcomes. (Not guaranteed, although the comments say so: that each visit is made whatever the outcomes, that attributes are not left out.)",
  "every rule, every tree over its instances, every outcome of the tests",
  "orders branch on every test; the checks are the code's own oracle",
  [A+"aps-schedule.c: assert_total_order, total_order_sanity_check, followed_by, aug_graph_contains_phase, child_visit_consecutive, child_visit_completeness, check_circular_visit, check_duplicates, validate_linked_list"])
p("The static schedule of a rule is right",
  "For every rule that can be scheduled, schedule_augmented_dependency_graph gives a total order in which, whatever the outcomes of the tests, exactly the instances whose conditions hold are computed, once, after all they depend on; the visits of the node and of each child are made in order, attributes in the visit that is their phase, inherited ones of a child before and synthesized ones after its visit; and the checks pass. (False of the code for dependencies within one phase, and for locals that depend on the last synthesized attributes.)",
  "every rule without circular phases and every outcome of its tests",
  "dependency graphs of unbounded size; exponentially many outcomes",
  [A+"aps-schedule.c: schedule_augmented_dependency_graph, schedule_visit_start, schedule_visit_end, schedule_transition_end_of_group, group_schedule, chunk_schedule, chunk_component_schedule"])
p("The static scheduler stops",
  "Scheduling a rule that can be scheduled ends. (False of the code with circular phases: two visits of children can hand over to each other for ever.)",
  "every rule that has a right total order",
  "an infinite recursion is observed only for a particular graph",
  [A+"aps-schedule.c: chunk_schedule, chunk_component_schedule"])
p("Canonical types are canonical",
  "Two canonical types are the same pointer exactly if they are the same type (the same use of a declaration, the same declaration qualified by the same type, the same parameters and result), however they were constructed, and the object never changes. (False of the code if the hash of a type overflows a long, e.g. for a function of four parameters.)",
  "every history of constructions of types and signatures, every state of the prime sieve",
  "histories of any length with types of any depth; equality depends on collisions and resizing",
  [A+"canonical-type.c: canonical_type_hash, canonical_type_equal, new_canonical_type_use, new_canonical_type_qual, canonical_type_function"])
p("Canonical signatures are canonical",
  "Two canonical signatures are the same pointer exactly if they are the same: same flags, same class, same actuals; the object never changes. (As for types, unless a hash overflows.)",
  "every history of constructions of types and signatures, every state of the prime sieve",
  "histories of any length; equality depends on collisions and resizing",
  [A+"canonical-signature.c: hash_canonical_types, canonical_signature_hash, canonical_signature_equal, new_canonical_signature"])
p("Types and signatures are printed in a fixed order",
  "The comparisons of types and of signatures are total preorders by line numbers of declarations, 0 exactly for types that differ at most in declarations on the same line; a set of signatures is printed sorted, and what is printed does not depend on addresses or on the order of the elements.",
  "every history of constructions, every assignment of line numbers, every set of signatures",
  "a relation between all pairs and triples of types, and between any two runs",
  [A+"canonical-type.c: canonical_type_compare", A+"canonical-signature.c: canonical_signature_compare, print_canonical_signature_set"])
p("Substituting actuals in a signature",
  "The signature of an instance is that of the module with every formal replaced by the base type of the corresponding actual. (False of the code: it writes beyond the memory it asks for whenever the signature has an actual.)",
  "every signature, every module and instance",
  "the overrun is hidden by the alignment of the stack for few actuals",
  [A+"canonical-signature.c: join_canonical_signature_actuals, substitute_canonical_signature_actuals", A+"canonical-type.c: canonical_type_decl"])
p("Names are bound lexically",
  "A use of a name denotes the last declaration that answers to it (by name and namespace) in the innermost scope around it that has one, seen through the polymorphic declarations around that declaration; a use that denotes nothing is reported, and nothing else is. (The last part is false of the code: the formals of a class or function are read once before the result is in scope, and reported then.)",
  "every program: any nesting of scopes, any uses, any imports",
  "programs of any size and nesting; the order of traversals and re-traversals decides what is in scope",
  [A+"aps-bind.c: bind_Program, do_bind, get_bindings, get_public_bindings, bind_Use_by_name, add_env_item", "parse/aps-traverse.c"])
p("Duplicate declarations are reported",
  "A declaration is reported as a duplicate exactly if it has a name and a namespace in common with an earlier one in scope. (False of the code: a polymorphic declaration hides duplicates, and the variable of a comprehension in the condition of a match is reported as a duplicate of itself.)",
  "every program",
  "depends on every pair of declarations and what lies between them",
  [A+"aps-bind.c: add_env_item, get_bindings, do_bind"])
p("Lists are walked in order",
  "After binding, the loop from first_X through the next fields meets exactly the elements of each list of the program, in order, whatever the shape of the list's tree.",
  "every program: any nesting of lists of the eight phyla, any shape of nil/list/append",
  "trees of any shape and nesting; a field written for one list must survive the traversal of all others",
  [A+"aps-bind.c: set_next_fields, units_set_next_unit, decls_set_next_decl, actuals_set_next_actual, exprs_set_next_expr, pattern_actuals_set_next_pattern_actual, patterns_set_next_pattern, type_actuals_set_next_type_actual, matches_set_next_match, first_Unit, first_Declaration, first_Actual, first_Expression, first_PatternActual, first_Pattern, first_TypeActual, first_Match"])
p("Generated procedures are programs",
  "Whatever the total order of a rule, the text written for a visit procedure, for visit() of a module and for the body of a function is the text of exactly one program: each if, match, for and do that is opened is closed at the right place, although the opening of a loop is delayed until something is written in it.",
  "every rule, every tree given as total order, every phase, with and without loops and comments",
  "the openings, the delayed output and the recursion over the tree interact; any tree shape",
  ["codegen/static-scc-impl.cc: OutputWriter, implement_visit_function, dump_loop_start, dump_loop_end, dump_visit_functions, dump_scheduled_function_body"])
p("Generated procedures follow the total order",
  "The visit procedures of a rule, called one after the other, assign the attribute instances and visit the children as the total order says: each visit does its own part and no other, for all outcomes of the tests; repeated fixed-point loops only repeat. Hence if the order is right, what an instance depends on is assigned before it and the visits of each child are made once, in order.",
  "every scheduled rule without for-in statements, all outcomes of tests, any number of repetitions of loops",
  "the same tree is walked once per phase; each walk has to skip exactly what the others do, on all paths",
  ["codegen/static-scc-impl.cc: implement_visit_function, make_instance_assignment, dump_visit_functions, dump_scheduled_function_body"])
p("Circular attributes are computed in fixed-point loops",
  "Assignments of circular locals, visits of children in circular phases and the attributes of these phases are inside a fixed-point loop of the generated procedure, loops are not nested, and when the loops have settled all circular assignments are satisfied.",
  "every scheduled rule no visit of which is circular, all outcomes of tests",
  "depends on where each chunk of the order begins and ends, in every tree",
  ["codegen/static-scc-impl.cc: implement_visit_function, dump_loop_start, dump_loop_end"])
p("All assignments of an instance take effect",
  "When it is the turn of an instance, the generated code assigns it the right hand sides of all assignments in the blocks we are in: from the last normal one on, each collection assignment once; the default exactly if there is none.",
  "every rule, all outcomes of tests, any nesting and order of blocks",
  "depends on the blocks entered before, in every order the scheduler may choose",
  ["codegen/static-scc-impl.cc: make_instance_assignment, implement_visit_function"])
p("Matches look at their own case statement",
  "In the generated code every match of a case statement looks at the value of that case statement.",
  "every scheduled rule, every path through its total order",
  "the order of the matches is chosen by the scheduler",
  ["codegen/static-scc-impl.cc: implement_visit_function", A+"aps-dnc.c: add_edges_to_graph"])
p("for-in statements repeat their bodies only",
  "In the generated code what does not belong to a for-in statement is done once, however many elements its sequence has.",
  "every scheduled rule, all numbers of elements",
  "ranges over all sequences and all orders",
  ["codegen/static-scc-impl.cc: implement_visit_function"])
p('The Scala evaluator has no internal failures',
  'Demanding an attribute never fails with a null pointer, a failed assertion or a pop of an empty stack inside the evaluator, even after earlier calls threw exceptions that were caught; nor does assigning an attribute that is not circular.',
  'every set of attributes with any programs computing them (circular or not, collections or not), every sequence of demands and assignments, including those that throw',
  'union-find links, member lists and helpers of cycles are updated in the middle of nested evaluations; every nesting must be covered',
  ['base/scala/aps-impl.scala: Evaluation.get, Evaluation.doEvaluate, CircularEvaluation.inCycle, setInCycle, detectedCycle, markPending, evaluateCycle, check, CircularHelper.add, addAll'])
p('Values of the Scala evaluator are final',
  'After a demand returns nothing is in progress, the attribute has the value returned, and no value that was final before has changed; a later demand of the attribute gives the same value unless it is assigned in between; an assignment makes the value assigned (for a collection: combined with what is there) final and changes no other attribute.',
  'every set of attributes, every history of demands and assignments that returned',
  'recomputation of cycles overwrites values; all nestings and all histories matter',
  ['base/scala/aps-impl.scala: Evaluation.get, set, doEvaluate, CollectionEvaluation.set, initialize, CircularEvaluation.evaluateCycle'])
p('Evaluated attributes satisfy their equations (Scala)',
  'The value of every attribute evaluated on demand is what its program computes from the final values of the attributes it reads, circular or not.',
  'every set of attributes, every history in which everything is assigned before anything is demanded',
  'fixed-point iteration over cycles found on the fly, merged while they are iterated; which cycles merge depends on the programs and on the values',
  ['base/scala/aps-impl.scala: CircularEvaluation.evaluateCycle, recompute, check, detectedCycle, markPending, setInCycle, CircularHelper.addAll'])
p('Circular evaluation stays below every solution (Scala)',
  'Whatever bounds the programs respect (e.g. being at most the value in some solution of monotone equations) hold of all final values: together with C78, fixed points that are found are least.',
  'every set of attributes, every bound on the values that the programs, the initial values and the assignments respect, every history',
  'quantifies over all bounds and all orders of evaluation',
  ['base/scala/aps-impl.scala: CircularEvaluation.evaluateCycle, detectedCycle, Evaluation.get'])
p('Demands without circularity give the values of the attributes (Scala)',
  'If no attribute is circular, a demand returns a value exactly if the attribute has it by its equations and the assigned values; CyclicAttributeException is thrown only for an attribute that really needs one that needs itself, and then the attribute has no value.',
  'every set of attributes, none of them circular, with programs whose reads depend on values read before; every history in which everything is assigned before anything is demanded',
  'all dependency graphs, including those that depend on values; completeness is an existential over all lengths of evaluation',
  ['base/scala/aps-impl.scala: Evaluation.get, doEvaluate, detectedCycle'])
p('Circular attributes are never seen as null (Scala)',
  'If programs give proper values for proper values, and defaults and assigned values are proper, then no program reads null and every demand gives a proper value.',
  'every set of attributes, every history',
  'which attribute of a cycle is read first depends on the order of demands and on the programs',
  ['base/scala/aps-impl.scala: CircularEvaluation.detectedCycle, markPending, setInCycle, getDefault'])
p('Attributes can be assigned until they are evaluated (Scala)',
  'Assigning an attribute that was not evaluated returns and makes the value final.',
  'every set of attributes, every history, every attribute and value',
  'ranges over all histories and attribute kinds',
  ['base/scala/aps-impl.scala: Evaluation.set, CircularEvaluation.set, check, CollectionEvaluation.set'])
p('Late assignments are reported (Scala)',
  'An assignment of an attribute whose value was already used by an evaluation is reported with an exception and changes nothing: evaluated attributes satisfy their equations after any history of calls that returned.',
  'every set of attributes, every history',
  'who used the value before is a property of the whole history',
  ['base/scala/aps-impl.scala: Evaluation.set, Evaluation.get, TooLateError'])
p('The order of demands does not matter (Scala)',
  'Two histories with the same assignments, followed by demands in different orders, give the same value to every attribute that is evaluated in both.',
  'every set of attributes with monotone programs, all pairs of histories',
  'compares all pairs of orders; cycles are detected at different attributes',
  ['base/scala/aps-impl.scala: CircularEvaluation.evaluateCycle, detectedCycle, markPending, Evaluation.get'])
p('Only circular attributes depend on themselves (Scala)',
  'If an evaluation returns, no attribute that is not declared circular depends on itself by the final values; otherwise CyclicAttributeException is thrown.',
  'every set of attributes, every history in which everything is assigned before anything is demanded',
  'a cycle may appear only in later passes of the iteration of another cycle',
  ['base/scala/aps-impl.scala: Evaluation.setInCycle, detectedCycle, CircularEvaluation.markPending, evaluateCycle'])
p('Powers',
  'x ^ y is x multiplied by itself y times (one divided by that power if y is negative), in every type with an associative multiplication; in the C++ and in the Scala runtime.',
  'every such type, every x, every exponent that fits an Int',
  'repeated squaring takes a different path for every exponent',
  ['base/scala/basic.handcode.scala: M__basic_6.f__op_7 (^), v_odd','base/basic.aps: ^','base/cpp/basic.handcode.h: v_odd'])
p('Ranges of integers (Scala)',
  'x..y is the list of the integers from x to y in ascending order, and is empty if y < x.',
  'all pairs of Int',
  '2^64 pairs; the recursion halves the interval by arithmetic that wraps around',
  ['base/scala/basic.handcode.scala: lines 101-122 (..)'])
p('Operations on lists (Scala)',
  'nth, nth_from_end, member, position, position_from_end, subseq, butsubseq and their from_end variants of lists select the elements, positions and parts their names say.',
  'every list, every element, all bounds',
  'all lists of all lengths',
  ['base/scala/basic.handcode.scala: I_LIST, I_BAG'])
p('Operations on strings (Scala)',
  'nth, nth_from_end, member, position, position_from_end, subseq, butsubseq of strings select the characters, positions and parts their names say, report bounds outside the string, and strings are totally ordered.',
  'every string, every character, all bounds',
  'all strings of all lengths',
  ['base/scala/basic.handcode.scala: M_STRING'])
p('Multisets (Scala)',
  'An element occurs in the union, intersection, difference and combination of two multisets the maximum, minimum, difference and sum of the numbers of times it occurs in them; one multiset is less or equal if each element occurs at most as often; an element is a member if it occurs.',
  'every element type with an equivalence as equality, all pairs of multisets',
  'multisets are unordered lists with repetitions: all orders of all lists',
  ['base/scala/basic.handcode.scala: M_MULTISET, I_BAG'])
p('Sets (Scala)',
  'Membership, union, intersection, difference, removal, comparison and length of sets are those of mathematics, with respect to the equality of the element type.',
  'every element type, all pairs of sets',
  'all sets of all sizes',
  ['base/scala/basic.handcode.scala: M_SET'])
p('Lattices of truth values and of ordered types (Scala)',
  'OrLattice, AndLattice, MAX_LATTICE and MIN_LATTICE are lattices: compare_equal is a partial order whose least element is bottom, compare its strict part, join and meet give least upper and greatest lower bounds.',
  'every totally ordered type with a least (greatest) element, all values',
  'lattice laws range over all triples of values of all types',
  ['base/scala/basic.handcode.scala: t_OrLattice, t_AndLattice, M_MAKE_LATTICE, M_MAX_LATTICE, M_MIN_LATTICE'])
p('Lattices of sets (Scala)',
  'UNION_LATTICE and INTERSECTION_LATTICE (below any given universe) are lattices.',
  'every element type, every universe, all triples of sets',
  'lattice laws range over all triples of sets',
  ['base/scala/basic.handcode.scala: M_UNION_LATTICE, M_INTERSECTION_LATTICE'])
p('Lattices of tuples (Scala)',
  'Lists over a lattice form a lattice: the operations return, join and meet work at each position, and compare_equal is the order of that lattice.',
  'every lattice, all triples of lists of any lengths',
  'lattice laws over all lists of all lengths',
  ['base/scala/basic.handcode.scala: M_TUPLE_LATTICE'])
p('Flat lattices',
  'FLAT_LATTICE over any type is a lattice in which lifted equal values are equal, and lifted functions are monotone.',
  'every type, every function, all values',
  'depends on what equality of phylum nodes means in each runtime',
  ['base/flat.aps: FLAT_LATTICE','base/cpp/aps-impl.h','base/scala/basic.handcode.scala: I_PHYLUM, I_TYPE'])
p('Tables (Scala)',
  'A table gives each key the combination of the values entered for it; combining two tables combines the values of common keys and keeps the others; selecting gives the value of a key or the initial value; tables over a lattice form a lattice and selecting is monotone.',
  'every totally ordered type of keys, every type of values, all pairs of tables',
  'all tables of all sizes; lattice laws over all triples',
  ['base/scala/table.handcode.scala: M_TABLE, M_TABLE_LATTICE','base/table.aps'])
p('Symbols are ordered (Scala)',
  'The comparison of symbols is a total order, so that symbols can be keys of tables.',
  'all pairs of symbols',
  'a collision of hash codes is needed to see it fail',
  ['base/scala/symbol.handcode.scala: M_SYMBOL'])
p('The dynamic generator writes programs (Scala)',
  'For every attribute, local attribute, global variable and function whose statements can be translated, the dynamic generator of aps2scala writes the text of one Scala function (balanced, and read in one way only), unless the statements are nested too deeply: then, and only then, an error is reported.',
  'every program made of the supported statements, nested to any depth',
  'contexts are opened lazily and closed only if they were opened: the interplay depends on where in the nesting the assignments are',
  ['aps2scala/dyn-impl.cc: push_attr_context, activate_attr_context, pop_attr_context, dump_Block, implement_attributes, implement_var_value_decls, implement_function_body, implement_local_attributes'])
p('Synthesized attributes (dynamic generator, Scala)',
  'The function generated for a synthesized attribute gives, at each node, the value of the first assignment to that attribute of the node that the program executes, and the default if there is none (if the assignments to the attribute of a node are made where the node itself is matched, and cases are as in C103).',
  'every program, every tree, every node, whatever expressions, conditions and patterns mean',
  'all programs and all trees',
  ['aps2scala/dyn-impl.cc: implement_attributes, dump_attr_assign'])
p('Inherited attributes (dynamic generator, Scala)',
  'The function generated for an inherited attribute gives, at each node, the value of the first assignment to that attribute of the node that the program executes, and the default if there is none.',
  'every program, every tree, every node, whatever expressions, conditions and patterns mean',
  'all programs and all trees',
  ['aps2scala/dyn-impl.cc: implement_attributes'])
p('Collection attributes (dynamic generator, Scala)',
  'The function generated for a (not inherited) collection attribute gives, at each node, the combination of the initial value with the values of all assignments to it that the program executes, at whatever nodes (cases as in C103).',
  'every program, every tree, every node',
  'all programs and all trees',
  ['aps2scala/dyn-impl.cc: implement_attributes, dump_attr_assign'])
p('Global variables (dynamic generator, Scala)',
  'The function generated for a global variable gives the value of the first assignment that the program executes at any node or the default; for a collection the combination of all of them (cases as in C103).',
  'every program, every tree',
  'all programs and all trees',
  ['aps2scala/dyn-impl.cc: implement_var_value_decls'])
p('Case statements (dynamic generator, Scala)',
  'A case statement in the generated functions executes the branch that the program selects: the first that matches, or the default.',
  'every case statement, every value',
  'branches without an assignment to the attribute are left out, which only shows for certain values',
  ['aps2scala/dyn-impl.cc: dump_Matches, dump_Block, activate_context'])
p('Functions (dynamic generator, Scala)',
  'The body generated for a function gives the value of the first assignment to the result that is executed, or the default, where variables of the function have the values that are assigned to them.',
  'every function body, every argument',
  'all function bodies',
  ['aps2scala/dyn-impl.cc: implement_function_body, dump_local_decl'])
p('Local attributes (dynamic generator, Scala)',
  'The function generated for a local attribute gives the value of the first assignment to it executed in its block, with the variables bound by the matches around it, or the default; for a collection the combination of all (cases as in C103).',
  'every program, every local attribute at any depth, every node',
  'all programs and all trees',
  ['aps2scala/dyn-impl.cc: implement_local_attributes, dump_local_context_begin, dump_local_context_end, local_attribute_block','aps2scala/dump-scala.cc: dump_local_attributes'])

p('Nodes are registered (Scala)',
  'A constructor that returns gives a new node of its phylum with the arguments of the call, and its number is its index among the nodes of the phylum. The nodes of a phylum are in the order of their creation, one for each call of a constructor before the phylum was finished; numbers and order never change. Once the phylum is finished its constructors fail and do not change the nodes.',
  'every sequence of calls of constructors (also failing ones) and of finish, of any phyla',
  'all histories of calls',
  ['base/scala/aps-impl.scala: Node.register, Nodes.add, I_PHYLUM.finish', 'aps2scala/dump-scala.cc: constructors'])
p('Each node has one parent (Scala)',
  'A constructor succeeds exactly if the phylum is not finished, no child is null or has a parent, and no child is given twice. The parent of a node is the node that it was given to as a child; it never changes. A call that fails leaves everything as it was.',
  'every sequence of calls of constructors (also failing ones)',
  'all histories of calls, with sharing of nodes and failures in the middle of a call',
  ['base/scala/aps-impl.scala: Node.register'])
p('Rooted nodes (Scala)',
  'isRooted terminates and says whether the node, its parent, or some other ancestor is a node of the start phylum.',
  'every history, every node, every choice of start phyla',
  'trees of any depth',
  ['base/scala/aps-impl.scala: Node.isRooted', 'aps2scala/dump-scala.cc: isRooted'])
p('Each node has its own evaluation (Scala)',
  'For every node of the phylum of an attribute the attribute uses an evaluation anchored at that node, whatever nodes were created, demanded or assigned before in whatever order; finding it changes no other evaluation.',
  'every history of constructor calls, demands and assignments',
  'evaluations are created in bulk and on demand, while nodes are being created',
  ['base/scala/aps-impl.scala: Attribute.checkNode'])
p('Finishing an attribute (Scala)',
  'After finish, every rooted node of the phylum has a value, earlier values are unchanged, and nothing was computed that no rooted node needs, directly or indirectly; for an attribute that was not used before a node has a value exactly if it is needed by a rooted one. Without cyclic needs finish succeeds; finishing twice changes nothing. Once evaluation has started a value can no longer be assigned.',
  'every history, every relation of needs between the nodes of a phylum',
  'all trees and all dependencies between their nodes',
  ['base/scala/aps-impl.scala: Attribute.finish, Attribute.assign, Attribute.get, Evaluation.set'])
p('Elements of sequences (Scala)',
  'size, nth and nth_from_end of a sequence agree with its list of elements, whatever the tree of append, single and none it was built as; outside of the bounds there is an exception. position is the index of the first element accepted by ==, or -1; position_from_end counts from the end; member says whether there is one.',
  'every sequence tree, every index',
  'all shapes of trees',
  ['base/scala/basic.handcode.scala: M_SEQUENCE'])
p('Equality in sequences (Scala)',
  'member and position of a sequence use the equality of the element phylum: they find the very node that is given.',
  'every history, every sequence of nodes',
  'nodes with equal arguments are different nodes',
  ['base/scala/basic.handcode.scala: M_SEQUENCE.f_member, M_SEQUENCE.f_position', 'base/scala/aps-impl.scala: I_PHYLUM.f_equal'])

p('A procedure for every phase (static evaluator)',
  'For a rule with a legal total order as many visit procedures are generated as its phylum has phases; nothing fails on the way.',
  'every rule (any instances, tests, blocks, children) and every legal conditional total order of it, for Scala and C++',
  'all orders, with tests at any point and visits of children interleaved with them',
  ['codegen/static-impl.cc: implement_visit_function, dump_visit_functions'])
p('Static evaluation does each thing once',
  'When the root is visited in each phase, every node of the tree executes exactly the assignments of its rule that are in effect for the way the tests come out at that node (the last one for each attribute instance on the way), each once, in the order of the schedule; no visit procedure is called that does not exist.',
  'every grammar with legal orders, every tree of it, every outcome of the tests at every node',
  'all trees and outcomes; the visits of a child are spread over several procedures of its parent',
  ['codegen/static-impl.cc: implement_visit_function'])
p('Values are ready when they are used (static evaluator)',
  'Whatever comes before an assignment in the order of its rule has its value before the assignment is executed, also if the value is computed in the rule of a child or of the parent.',
  'every grammar with legal orders consistent with the phases of its phyla, every tree, every outcome of the tests',
  'all trees and outcomes',
  ['codegen/static-impl.cc: implement_visit_function'])
p('Scheduled orders are legal',
  'The conditional total order that the analysis computes for a rule is legal if the graph of the rule contains the dependencies between the phases of the node and of each child, every phase has a synthesized attribute that is always there, and an inherited attribute of the first phase comes first.',
  'every rule graph with these dependencies',
  'all graphs and conditions',
  ['analyze/aps-oag.c: schedule_augmented_dependency_graph', 'codegen/static-impl.cc: implement_visit_function'])
p('Static evaluation respects dependencies',
  'In the evaluator generated from the computed orders, an assignment is executed after the assignments that give the values it depends on (direct or indirect dependencies of the analysis under the outcome of the tests at that node), wherever in the tree these are made.',
  'every analysed grammar, every tree, every outcome of the tests',
  'all trees and outcomes',
  ['analyze/aps-oag.c: schedule_augmented_dependency_graph', 'codegen/static-impl.cc: implement_visit_function'])
p('Everything is evaluated (static evaluator)',
  'Every assignment of the rule of every node is executed once, by the procedures of that rule: all contributions to a collection, nodes with inherited attributes only, case statements in any order, each constructor by its own rule, and nodes of the start phylum below the root as any other.',
  'every grammar and every tree',
  'all grammars and trees',
  ['codegen/static-impl.cc: make_instance_assignment, implement_visit_function, dump_visit_functions'])

p('The attribute instances of a rule',
  'The dependency graph of a rule has one vertex for each test, for each attribute of each node and of each function call in it, and for each variable it declares, and one for each fiber tracked for these; none is there twice and there are no others. Looking an instance up finds it, or says that it is not there, whatever the analysis of other rules left behind.',
  'every rule (any nesting of statements, patterns and expressions) whose declarations are distinct, every assignment of fibers',
  'all rules and fiber sets; the lookup starts at an index that another rule may have set',
  ['analyze/aps-dnc.c: get_instances, assign_instances, get_instance_or_null, init_augmented_dependency_graph'])
p('Numbers and conditions of tests',
  'The ifs and the matches of cases of a rule get different numbers from 0 on; a rule with more than 32 of them is rejected. Without `for`: the condition recorded for a statement holds exactly for those outcomes of the tests with which the statement is executed, and the condition recorded for a test exactly for those with which the test is made.',
  'every rule and every outcome of its tests',
  'all nestings of if and case statements and all outcomes',
  ['analyze/aps-dnc.c: count_if_rules, init_decl_cond, if_rule_cond'])
p('Every dependency of a rule has an edge',
  'For rules without `for`, initial values of collections and conditions within choices of patterns: what a rule gives to an instance stays the same if values change at instances only from which it has no edge that holds under the outcome of the tests; and, except for variables that are bound below a test, it stays the same if tests come out differently from which it has no edge.',
  'every such rule, every meaning of the operations, all values and outcomes',
  'all rules and all values; fields, shared declarations, calls and nested left-hand sides each add their own edges',
  ['analyze/aps-dnc.c: get_edges, record_expression_dependencies, record_condition_dependencies, record_lhs_dependencies, add_edges_to_graph'])
p('Every edge of a rule stands for a dependency',
  'An edge that is not just for fibers stands for something that is read: under every outcome that meets its condition, and with operations that lose nothing, a change of the value at its source changes what the rule gives to its sink. (Without `for`; not for pattern variables.)',
  'every rule and edge, every outcome of the tests, all values',
  'all rules and values',
  ['analyze/aps-dnc.c: get_edges, record_expression_dependencies, record_lhs_dependencies, add_edges_to_graph'])
p('The graph of a rule joins its edges',
  'Building the graph of a rule without `for` never fails, whatever graphs there are already, and leaves those as they are; afterwards the dependency between two instances under an outcome of the tests is the join of exactly those edges between them that hold under it.',
  'every rule, every outcome, every history of building and changing other graphs',
  'all rules and all states of the shared edge pool and free list',
  ['analyze/aps-dnc.c: init_augmented_dependency_graph, add_edge_to_graph, add_edge'])
p('All statements and patterns are covered by the graph',
  'The graph of a rule shows on what each value depends and under which condition, also for variables bound below a test or by a pattern, collections with an initial value, conditions within choices of patterns, attributes of nodes held in variables, `for`, and assignments to the result of a call.',
  'every rule',
  'all rules; the gaps only show with particular combinations',
  ['analyze/aps-dnc.c: get_edges, init_decl_cond, get_match_tests, record_lhs_dependencies, count_if_rules'])

p('The edges of a rule, their kinds and those for fibers',
  'The edges of the graph of a rule without `for` are exactly these: for every place whose value a statement puts somewhere or uses to decide what is put there, an edge under the condition of the statement, marked as carrying if that value itself may get there and as simple if a declaration on the way is not circular; if it is carried, for every fiber an edge between what is followed from both places, against the direction of the value for a fiber that is followed backwards; edges between the fields of an object created in a declaration; and an edge from every test in the condition of a statement to whatever the statement gives a value.',
  'every rule and every assignment of fibers to declarations',
  'all rules, nested fields and fibers in both directions',
  ['analyze/aps-dnc.c: get_edges, add_edges_to_graph, dep_vertex_instance, record_expression_dependencies, record_lhs_dependencies, record_condition_dependencies'])

p('Comparison of types decides identity up to renaming and remoteness',
  'Two types compare as equal exactly when they can be made identical by replacing renamed types by what they rename and remote types by their node types, anywhere in them. If no type is a renaming of itself, directly or indirectly, every comparison ends.',
  'every program, and every pair of types in it',
  'types of unbounded size and chains of renamings of any length',
  ['analyze/aps-type.c: base_type, base_type_equal, declarations_type_equal, check_type_equal'])

p('What the type checker accepts is well typed',
  'If type checking ends without reporting an error, then there is one choice of a type for every type formal of every use of a polymorphic entity, and one type for every pattern variable, under which every expression that was checked has the type recorded for it, every argument fits its formal, every assigned thing is declared VAR and has the type of the value, every default has the declared type and every condition is Boolean.',
  'every program in the modelled part of the language',
  'inference works by side effects on uses, in the order in which the text is visited',
  ['analyze/aps-type.c: do_typechecking, infer_expr_type, check_expr_type, check_actuals, infer_function_return_type, check_function_return_type, type_subst, check_type_subst'])

p('Patterns in accepted programs are well typed',
  'If type checking ends without reporting an error, every pattern has the type of what it is matched against, with every type annotation in it being right.',
  'every program in the modelled part of the language',
  'patterns are nested without bound and are visited in two modes',
  ['analyze/aps-type.c: infer_pattern_type, check_pattern_type, check_pattern_actuals, check_pfunction_return_type, infer_pfunction_return_type'])

p('Inferred types satisfy the signatures of their formals',
  'If type checking ends without reporting an error, every type inferred for a type formal of a polymorphic satisfies the signatures of that formal.',
  'every program, every use of a polymorphic entity',
  'signatures refer to other formals that are inferred later or earlier',
  ['analyze/aps-type.c: check_type_signatures, type_element_type, sig_element_type'])

p('The type checker does not crash',
  'Type checking of a program whose names are bound never reads through a null pointer.',
  'every program in the modelled part of the language',
  'depends on which type formals are still open when a type is met',
  ['analyze/aps-type.c: check_type_subst, is_complete'])

p('Constant functions do not read variables',
  'If an expression in a constant function reads a variable, an attribute or a collection declared outside of the function, type checking reports an error.',
  'every expression at every place',
  'an expression is visited in one of two modes, depending on what is around it',
  ['analyze/aps-type.c: check_expr_type, ensure_non_var_use, infer_expr_type'])

p('Well typed programs are accepted',
  'Type checking of a well typed program ends without reporting an error.',
  'every well typed program',
  'a claim about all well typed programs',
  ['analyze/aps-type.c: do_typechecking, infer_expr_type, check_expr_type, infer_pattern_type, check_pattern_type'])

p('Types asked for after type checking',
  'After type checking without errors the type of any sub-expression can be asked for; the answer is a type of that expression.',
  'every accepted program, every sub-expression',
  'types are recorded for some sub-expressions only and computed again for the others',
  ['analyze/aps-type.c: infer_expr_type, type_subst'])

p('Patterns become Scala case clauses',
  'If the Scala back end prints a pattern without reporting an error, what it prints is one Scala pattern, possibly followed by one guard, and can be read in one way only.',
  'every pattern, whatever was printed before it',
  'patterns are nested without bound; the text of a guard is valid at the end only',
  ['aps2scala/dump-scala.cc: dump_pattern_call, dump_Pattern', 'parse/aps.y: match_expression'])

p('Scala clauses printed for patterns are legal',
  'In the Scala clause printed for a pattern no variable is bound twice, constructor patterns have the number of arguments of their extractors, and a rest pattern stands at the end of a sequence pattern only; what is printed for a pattern does not depend on what was printed before.',
  'every pattern with distinct variables, whatever was printed before it',
  'names for unnamed variables come from a global counter',
  ['aps2scala/dump-scala.cc: formal_count, dump_pattern_call, dump_Pattern'])

p('Scala clauses mean what the patterns mean',
  'A legal Scala clause printed for a pattern applies to a value exactly when the pattern matches the value, and binds every named variable to the same part of it.',
  'every pattern that is printed as a legal clause, every value',
  'patterns and values of any depth',
  ['aps2scala/dump-scala.cc: dump_pattern_call, dump_Pattern'])

p('C++ conditions mean what the patterns mean',
  'The C++ condition printed for a pattern is true for a value exactly when the pattern matches it, evaluating it never goes wrong, and the declarations printed after it give every named variable the part of the value it matched.',
  'every pattern printed without error, every value of its type',
  'evaluation order matters: a conjunct is safe only because of an earlier one',
  ['apscpp/dump-cpp.cc: dump_Pattern_cond, dump_seq_Pattern_cond, dump_Pattern_bindings, matcher_bindings'])

p('Both back ends agree on patterns',
  'If a pattern is accepted by both back ends and its Scala clause is legal, the Scala clause applies to a value exactly when the C++ condition is true of it, and the variables get the same values.',
  'every pattern and every value of its type',
  'a relation between two programs on all inputs',
  ['aps2scala/dump-scala.cc: dump_Pattern', 'apscpp/dump-cpp.cc: dump_Pattern_cond, dump_Pattern_bindings'])

p('Pattern declarations in Scala',
  'The Scala function printed for a pattern declaration has one legal case clause for every choice of the declaration.',
  'every pattern declaration printed without error',
  'any number of choices',
  ['aps2scala/dump-scala.cc: dump_scala_pattern_function', 'parse/aps.y: pattern_body'])

p('Expressions in generated code have their values',
  'The code printed for an expression without reporting an error computes the value of the expression: a call passes the values of the actuals, and a collection display makes the collection of its elements in order, with repeated elements spliced in.',
  'every expression, every meaning of names and functions',
  'expressions of unbounded depth',
  ['aps2scala/dump-scala.cc: dump_Expression, dump_collect_Actuals', 'apscpp/dump-cpp.cc: dump_Expression, dump_collect_Actuals'])

p('The scanner reads the whole text',
  'Scanning any text ends; unless a buffer overflows, every character of the text belongs to exactly one lexeme, in order, and each lexeme is what the first of the rules with the longest match there says.',
  'every text (any characters) and every state of the scanner',
  'all texts; rules overlap in many ways',
  ['parse/aps.lex: rules', 'parse/aps-lex.h'])

p('Tokens are found as they are written',
  'In a text made of written tokens with blanks, newlines and comments between them, the scanner finds exactly these tokens and reports no errors.',
  'every sequence of tokens, every layout',
  'maximal munch makes tokens interact with what follows them',
  ['parse/aps.lex: rules, intern_special, symbol_token'])

p('Operators and comments',
  'A comment, from -- to the end of the line, is skipped; an operator token is a sequence of operator characters without two hyphens in a row, so no comment starts inside of it.',
  'every text',
  'all texts; comment and operator characters overlap',
  ['parse/aps.lex: rules, special, operator'])

p('Line numbers of tokens',
  'The line number the scanner has for a token is the number of the line of the text it begins on.',
  'every text and every token found in it',
  'all texts, including constants over several lines',
  ['parse/aps.lex: rules, yylineno'])

p('Names of operators in generated code',
  'Different operators get different names in generated code, and every such name is an identifier of C++ and Scala.',
  'all pairs of operators',
  'infinitely many operators; the table of characters is computed',
  ['parse/aps.lex: make_code_name, init_lexer_tables, translate, special_buf'])

p('Each _ gets a name of its own',
  'The symbol made for _ differs from the symbol of every other _ and from every symbol the user writes.',
  'every text without scanning errors',
  'any number of occurrences; the name comes from a counter',
  ['parse/aps.lex: rules, unique, intern_symbol_np, warned_about_underline'])

p('The search path',
  'APSPATH (or -p) is a list of directories separated by colons; a file is taken from the first directory on the path that has it, and looking for it never overruns the buffer for file names.',
  'every path, every file name, every file system',
  'unbounded lengths; the loop computes a wild pointer in its last round',
  ['analyze/aps-read.c: set_aps_path, aps_open'])

p('A program is read once',
  'Asking for programs by name gives, for the same name, the same program every time, read from the first file of this name on the path; different names give different programs, no file is read twice, and reading fails only if a file is missing or has errors or there are more than 100 programs.',
  'every sequence of requests, every file system',
  'depends on the whole history of requests',
  ['analyze/aps-read.c: find_Program, initialize', 'parse/aps.y: init_parser'])

p('Programs named by with are read and bound once',
  'However programs name each other by with, also in cycles, binding a program ends, reads exactly the programs needed for it, and binds the uses in each of them once, in a scope made of the public declarations of basic, its own declarations and the public declarations of the programs it names.',
  'every file system, every graph of with units',
  'recursion through arbitrary, possibly cyclic, graphs of files',
  ['analyze/aps-bind.c: bind_Program, get_bindings, get_public_bindings', 'analyze/aps-read.c: find_Program'])

p('Scala code imports the right objects',
  'The Scala code for a program that names another by with imports the object which the code for the other program defines, and different programs define different objects.',
  'every pair of program names',
  'a relation between the outputs of separate runs',
  ['aps2scala/dump-scala.cc: program_id, dump_scala_Program', 'parse/aps.y: init_parser'])

p('Names for declarations without names',
  'The name made for a declaration without a name is an identifier and differs from all other such names, in all programs, and from the names made for _.',
  'all programs and all declarations in them',
  'names come from file names and a counter',
  ['parse/aps.y: make_implicit_name, init_parser'])

p('OAG phase scheduling of a whole grammar',
  'If the DNC test finds no cycle, then scheduling the phyla one by one, each time closing all graphs again, always ends without failing, keeps every dependency, and leaves graphs that are closed and agree with each other; if there is then no cycle, every attribute instance has a phase and no dependency of any phylum, also one induced by the schedules of other phyla, goes against the phases.',
  'every grammar (productions, phyla, initial dependencies with conditions)',
  'a fixed point over all graphs for every grammar',
  ['analyze/aps-oag.c: compute_oag, schedule_summary_dependency_graph', 'analyze/aps-dnc.c: dnc_close'])

p('Production orders follow the phases',
  'If the OAG analysis produces conditional orders, then each is an order for its production that respects the final dependencies under all outcomes of the tests, and at every node of every production no attribute instance of an earlier phase of the node comes after one of a later phase; the analysis always ends, and stops with an error only if some production has no order.',
  'every grammar, every production, every outcome of the tests',
  'quantifies over all outcomes of conditions and all grammars',
  ['analyze/aps-oag.c: compute_oag, schedule_augmented_dependency_graph, schedule_rest'])

p('Constants that are not closed are reported',
  'From a quote on, the scanner either returns a constant as specified (characters other than line ends, backslashes and the quote, or a backslash and any character, up to the closing quote) or reports an unterminated constant; it reports exactly when the file, the line or a final backslash comes before the closing quote, at the line of the opening quote, and goes on there.',
  'every file, every quote in it that begins a lexeme',
  'all texts; a missed case silently swallows code into a constant',
  ['parse/aps.lex: rules for character and string constants'])

p('From the analysis of a grammar to evaluation',
  'If the DNC and OAG analyses of a grammar end with schedules and orders, then the order of every production is legal, and when the visit procedures generated from these orders run on any tree, each assignment is executed after the assignments, wherever in the tree they are made, that give the values it depends on, both in the final dependency graphs and in those the analysis began with. (Provided every phase of a phylum has a synthesized attribute, the first instance of each rule is an inherited attribute of the first phase that depends on nothing, conditions depend on the tests they mention, and case statements do not interleave.)',
  'every grammar, every tree, every outcome of the tests',
  'composes two analyses, scheduling, code generation and execution for all grammars and trees',
  ['analyze/aps-oag.c: compute_oag', 'analyze/aps-dnc.c: dnc_close', 'codegen/static-impl.cc: implement_visit_function, dump_visit_functions'])

p('Which circular dependencies the analysis lets through',
  'If the analysis of a module (with static scheduling) does not give up, the dependency graphs it ends with are acyclic, and if in some syntax tree some attribute occurrence depends on itself through a chain of dependencies, then cycles are reported as removed, and: when no loop is asked for, no dependency of the chain can carry a value (all are between fibers); when a loop is asked for, some dependency of the chain is on an attribute declared circular. It says "not DNC" exactly if some instance depends on itself with a value and some (perhaps other) instance depends on itself through simple dependencies only. If the closed graphs have no circularity, it ends with right orders for all productions, with "not OAG" and a cycle, or because no order can be completed for some production.',
  'every grammar, every tree, every outcome of the tests, every chain',
  'quantifies over all trees of all grammars; the decision depends on the union of all cycles',
  ['analyze/aps-analyze.c: analyze_thing', 'analyze/aps-dnc.c: dnc_close, analysis_state_cycle', 'analyze/aps-cycle.c: break_fiber_cycles', 'analyze/aps-oag.c: compute_oag'])
p('Declarations of circular attributes are checked',
  'Once cycles are looked for, an error is reported for every attribute instance (other than tests, function results, formals in patterns and fibers) that takes part in a cycle though not declared circular, and a warning for every one declared circular that takes part in none; each once, and nothing else is reported; this check does not change what is analysed.',
  'every grammar, every declaration of its attributes',
  'depends on the cycles of the whole grammar',
  ['analyze/aps-cycle.c: assert_circular_declaration, applicable_for_circularity_check, break_fiber_cycles', 'analyze/aps-analyze.c: analyze_thing'])
p('Cycles are judged one by one, and values that depend on each other are iterated',
  'Whether a module is refused does not depend on unrelated cycles occurring together; a module in which values of circular attributes depend on each other is refused by static scheduling or gets a loop; and an attribute declared circular that is in no cycle is always reported.',
  'every grammar',
  'needs the analysis of whole grammars',
  ['analyze/aps-analyze.c: analyze_thing', 'analyze/aps-cycle.c: break_fiber_cycles, assert_circular_declaration', 'codegen/static-impl.cc: implement'])

p('The analysis starts with the dependencies the rules say',
  'For every grammar (rules only: no functions of the module; at most 32 tests a rule, no for) the initialization succeeds. Then the dependency between two instances of a rule under an outcome of its tests is exactly the join of the edges the rule\'s text asks for under that outcome; every node of a rule has its instances in the order of the summary graph of its phylum; summary graphs have each attribute of the phylum with each fiber once and no dependency; the graph for the root has the root\'s attributes and no edge; and everything the iteration needs (shapes, queues, kinds) holds, so that it terminates. A rule for a phylum the module does not have, or with a child of one, ends the analysis.',
  'every grammar, every rule, every outcome of the tests',
  'all rules, all node positions, all edge conditions of unbounded grammars',
  ['analyze/aps-dnc.c: init_analysis_state, init_augmented_dependency_graph, init_node_phy_graph, init_summary_dependency_graph, summary_graph_for'])
p('A grammar found free of cycles has none in its text',
  'From the text of the rules to the verdict: if the analysis of a grammar finds no cyclic dependency, then in no syntax tree over its rules, under no outcome of the tests, is there a cycle of influences, where an attribute occurrence influences another if for some meaning of the operations and some values a change of the first alone changes what the rule gives to the second (or if the first is a test whose outcome alone does), and where an attribute of a node is the same in the rule above and the rule below.',
  'every grammar of rules, every syntax tree, every meaning of the operations, every values',
  'combines the reading of the rules, the closure and the test; quantifies over all trees and all interpretations',
  ['analyze/aps-dnc.c: init_analysis_state, get_edges, add_edges_to_graph, dnc_close, analysis_state_cycle'])

p('The order found for a rule follows the text of the rule',
  'From the text of the rules to the orders the generated code follows: if the dependencies of a grammar are closed without a cycle, the analysis ends: with an exit, with the verdict "not OAG", or with an order for every rule. In the last case, whatever the tests of the rule give, the order visits no instance twice; visits every attribute of the nodes of the rule, every test that is made and every variable whose declaration is executed; branches exactly where it comes to a test; visits an instance only where the tests made so far leave it possible that it is there; and whatever can influence an instance (as far as these tests tell) is not itself and is not visited later, and is visited earlier if it is there.',
  'every grammar of rules, every rule, every outcome of its tests, every meaning of the operations',
  'combines the reading of the rules, the closure, the schedules of the phyla and the orders; quantifies over all rules, outcomes and interpretations',
  ['analyze/aps-oag.c: compute_oag, schedule_rest, instance_condition', 'analyze/aps-dnc.c: init_decl_cond, fibered_attr_direction, if_rule_index', 'analyze/aps-analyze.c: analyze_thing'])

p('One plan of visits for every phylum, kept by the orders of all rules',
  'When the analysis of a grammar ends with orders, there is one plan that says for every attribute (and fiber) of every phylum in which visit it is given, and the schedules of the phyla are this plan. What is inherited (or synthesized, on a fiber going back) is given before a visit, what is synthesized (or inherited, going back) in it; no visit of a phylum is left out. The order of every rule, whatever its tests give, follows the text of the rule (C161), and at the node that the rule makes and at every node it uses, what the plan of the phylum of this node has earlier is visited earlier: so the rule that makes a node and the rule that uses it agree about what is there at each visit.',
  'every grammar of rules, every rule, every outcome of its tests, every node of the rule',
  'the agreement is between every pair of rules that meet at a node, for every outcome of the tests',
  ['analyze/aps-oag.c: compute_oag, schedule_summary_dependency_graph, schedule_rest', 'analyze/aps-dnc.c: fibered_attr_direction, init_node_phy_graph2', 'analyze/aps-analyze.c: analyze_thing'])


if __name__=="__main__":
    with open("/verif/properties.jsonl","w") as f:
        for q in P: f.write(json.dumps(q)+"\n")
    print(len(P))
