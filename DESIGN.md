# Formal model of boyland/aps in Rocq (Coq 8.16.1)

## Approach

The C/C++ code of /repo is modelled function by function as total, executable
Gallina functions.  A C call has one of four outcomes (`Base.v`, type `res`):
`Ok v`, `Exit` (the code calls `exit`, `fatal_error`/`abort`, or throws where
noted), `UB` (undefined behaviour: out-of-bounds access, read of uninitialised
memory, signed overflow, division by zero, double free, NULL dereference) and
`Fuel` (a loop or recursion ran out of the model's explicit fuel).  Theorems
about termination prove that `Fuel` is not the outcome for stated fuel (or that
it is not the outcome for all sufficiently large fuel).

Layout: `Model` files contain definitions only, `*Proofs` files the proofs, and
`Properties*.v` restate the final theorems, each closed by `exact`, followed by
`Print Assumptions` and non-vacuity examples.

## Plan, property by property

| property | model | proof |
|---|---|---|
| C01-C02 | `PrimeModel.v`: sieve over a finite map with the exact int overflow limits, state threaded through calls | loop invariants for the two sieve loops (number theory of least factors); totality from the twin prime pair 10^9+7, 10^9+9, checked by trial division in the kernel |
| C03 | `StackModel.v`: heap of cells, several stacks | invariant: chains are disjoint and live; simulation by lists |
| C04-C07 | `HashTableModel.v`: entry array, double hashing, resize through the prime model | probe sequence of a prime modulus visits every slot (gcd); invariant "every key is reachable by its probe chain"; refinement to a finite map; witnesses for remove / NULL / clear |
| C08-C11 | `HashConsModel.v`: pointer table over an object heap; sets as sorted address arrays | same probing lemmas; canonical sorted lists |
| C12-C14 | `SccModel.v`: vertex map through the hash table model, matrix closure, Kosaraju | closure invariant; post-order invariant of DFS on a transitively closed graph |
| C15 | `HashConsModel.v` | bounds by induction, overflow witness |
| C16-C18 | `CollModel.v`: trees append/single/none with Z indices | structural induction against the flattened list |
| C19-C20 | `SetModel.v` | structural induction |
| C21-C22 | `BasicModel.v`: int strings with overflow, std::string substr semantics | digit induction; witnesses |
| C23 | `TableModel.v`: heap of mutable full tables | simulation, aliasing witness |
| C24-C30 | `AttrModel.v`: phylum, attribute status arrays, demand evaluation of arbitrary computations, collection and circular attributes | big-step invariant over evaluation stacks; lattice arguments; counterexample for two-node cycles |
| C31-C32 | `AllocModel.v`: blocks, marks | invariant on live intervals |
| C33 | `SymbolModel.v` | induction over calls |
| C34-C35 | `RopeModel.v` | structural induction; witness |
| C36 | `AlistModel.v` | induction |
| C37-C39 | `CondModel.v`, `EdgeModel.v`: bit masks as N, edge sets as lists | bitwise extensionality |
| C40 | `WorklistModel.v`: linked list with head/tail in a heap | representation invariant |
| C41-C44 | `DncModel.v`: matrices, worklist closure, synchronisation, iteration | invariants, measure; tree paths by strong induction |
| C45 | `CycleModel.v` | union-find forest invariant |
| C46-C47 | `OagModel.v` | scheduling invariants; induction on remaining instances |
| C48 | `CycleModel.v` | loop invariant |
| C49 | `SccApsModel.v` | from C12 |
| C50-C52 | `CollModel.v` | structural induction; witnesses |
| C53 | `UpDownModel.v`: break_fiber_cycles with the UP/DOWN attributes, over the matrices and edge sets of `EdgeModel.v` | closure invariants for the summary and the rule graphs, state invariant over the worklist |
| C54-C57 | `FiberModel.v`: the NFA tables of aps-fiber.c, closure, makeDFA with its hash-consed states | epsilon reachability by closure invariant; states = words (languages given inductively in `FiberSpec.v`); witnesses for table size and shared transitions |
| C58 | `PhaseModel.v`: schedule_summary_dependency_graph with the phase tables as arrays of their allocated size | termination by number of unscheduled attributes; exact characterisation of success and of the overrun |
| C59 | `ChunkModel.v`: collect_aug_graph_chunks, dependencies between chunks, closure, components | the chunk graph is the transitive closure of an order on blocks stated in `SchedSpec.v` |
| C60 | `OrderModel.v`: assert_total_order | induction over trees; witness for what the checks let pass |
| C61-C62 | `ChunkModel.v`, `OrderModel.v`: the mutually recursive scheduler (one function over an inductive of entry points, with fuel) | simulation of the scheduler by a list of items of a topological order, then the built tree is run symbolically; witnesses where this fails |
| C63-C65 | `CanonModel.v`: shapes over a heap of pointers, the two tables as instances of `HashConsModel`; spec: types as terms, Polish notation | hash_cons_get commutes with unfolding pointers to terms, so C08's invariant applies on terms; comparison = lexicographic comparison of Polish notation |
| C66 | `CanonModel.v`: the loops, the buffer with its size in bytes | the first store past the end for every n; with 8n bytes by a loop invariant |
| C67 | `BindModel.v`: the binder over a skeleton of the syntax (uses, declarations, scopes), chains of env_items; `BindSpec.v`: scopes around a use as a relation | do_bind is a script of visits and additions; first and last visit of a use by induction on its occurrence |
| C68 | same | what a script's additions report, both ways; computed counterexamples |
| C69 | `NextModel.v`: next fields as a heap, traversal by following them | frame and chain segments, induction over the tree of lists |
| C70 | `GenModel.v`: implement_visit_function over tokens with the delayed writer; `GenSpec.v`: programs and their text | a planner that builds the program; the writer's queue as an invariant; the text determines the program |
| C71 | same; spec: executions of programs, what an order says has to be done | trees of the scheduler are "good" (conditions of tests never contradict); the trail of each phase, and their concatenation; repetitions do not change the first occurrences |
| C72-C75 | same; loops, actions outside loops, settled stores, blocks entered, scope of `node` | invariants of the planner along the tree; circular nodes characterised for every scheduled tree; computed counterexamples |
| C76 | Scala runtime, `ScModel`: objects with status, value, union-find link, list link, helper; the stack `pending`; programs of attributes as read trees | refinement to an abstract machine (`ScAbs`: cycles as member lists), invariant `Rep`; no abstract call crashes |
| C77, C79 | same; histories of calls | invariant `J` over nested evaluations (frames of `pending`), with an arbitrary property `B` of values |
| C78, C85 | same; `equation_holds`, `depends` in the final state | invariant `K` with ranks: values read at the last pass, unless cycles were merged; computed counterexamples |
| C80 | same without circular attributes; inductive `value_of` | soundness along the call, completeness by induction on `value_of`, acyclicity of `needs` |
| C81-C83 | same | C79 with `B` = not null; direct; counterexamples computed or for all histories |
| C84 | same, pairs of histories | values of one history bound those of the other (C79's invariant with equations of C78) |
| C86, C87 | Scala library of types, `SlModel`: `^` and `..` over 32-bit integers with fuel; `SlSpec`: power in a monoid, interval | strong induction on the exponent/length; divergence by induction on fuel |
| C88-C91 | lists, strings, multisets, sets of basic.handcode.scala as Coq lists; equality of Scala and equality of the element type kept apart | induction on lists; specs are `In`, `nth_error`, counts, `++` |
| C92-C95 | lattices of basic.handcode.scala and flat.aps; `SlSpec.lattice` (order, least element, least upper and greatest lower bounds) | case analysis and induction; C++ flat lattice with abstract object identities |
| C96, C97 | tables as sorted lists of entries (what `TreeMap` iterates over); symbols with Java's hash; balanced trees for C97 | insertion keeps order and lookups; lattice laws pointwise; computed collision |
| C98 | dynamic generator of aps2scala, `DyModel`: statements, contexts with lazy opening, tokens; `DySpec`: a small language of generated functions with texts | induction on statements with the context stack as invariant; texts are injective (unique reading) |
| C99-C102 | `DySpec`: meaning of the generated functions (`run_func`) and, independently, the assignments a program executes (`assigned`), both over an arbitrary world (values, environments, patterns, trees) | induction on statements: executing the generated block delivers the assigned values; then loops over nodes |
| C103-C105 | same | induction; universal counterexamples where the generator leaves branches or assignments out |
| C106-C108 | `SnModel`: heap of Scala nodes, `register`, phyla; `SnSpec.history`: all sequences of calls with their outcomes | invariant over histories |
| C109, C110 | attributes of `aps-impl.scala` over that heap; `SnSpec.uses`: histories with demands and assignments; `needed`, `rooted` inductively | invariant; induction on fuel; rank for termination |
| C111, C112 | sequence trees, spec is the list of elements | induction; structural equality on the heap for the counterexample |
| C113-C115 | `StModel`: generation of visit procedures from an order; `StSpec`: running them on trees, `legal` orders, `node_actions`, `gives` | procedures as segments of the path through the order; induction on trees |
| C116, C117 | `StLink.analysed`: what the analysis provides; orders by the model of C47 | order theorems of C47; C115 |
| C118 | the same; `dispatch` | counterexamples, general where possible |
| C119 | `GbModel`: text of a rule, numbering, instances, lookup (aps-dnc.c 441-920); `GbSpec.wanted` | traversal lists the wanted instances; the index of a declaration is at or before its first instance |
| C120 | conditions passed down (aps-dnc.c 541-633); `GbSpec.executed`, `made` | induction over numbered bodies; clearing a bit gives back the condition as numbers are fresh |
| C121, C122 | edges for expressions, left-hand sides, conditions, calls, statements (996-1746); `GbSpec.run`: values over any interpretation | induction over the text; injective interpretations for exactness |
| C123 | the calls of add_edge_to_graph, run by the model of C39 | every edge is proper (indices, kind, satisfiable condition) |
| C124 | the same | counterexamples |
| C125 | the same; `GbFibSpec`: relations on the text of a rule saying what is read, stored and passed | membership in the lists of edges by induction over expressions, patterns and statements |
| C126 | `TyModel`: types, base_type, base_type_equal; `TySpec.same` | `TyEq`: normal forms of the congruence; termination by a rank of renamings |
| C127-C129 | `TyModel`: expressions as heap nodes with recorded types, contours of uses as slots filled by side effect, patterns, statements; `TySpec`: declarative typing | `TySound`: triples over the state; slots only grow, so judgements stay true under every instantiation that agrees with the final state |
| C130 | the same; `TyCrash.closed_program` | `TyCrash`: no undefined behaviour in any state, by induction on fuel |
| C131, C133 | the same; `TyComplete.reads_var` | error flag monotone (from `TySound`); counterexamples by computation |
| C132 | the same; `TyComplete`, `TyNoAlarm`: scoping of pattern variables, written types | uniqueness of types up to `same`, then induction on fuel with an invariant without errors |
| C134, C135 | `PmModel.emit` prints a pattern as tokens with the global `formal_count` as state; `PmSpec.written` is the grammar of Scala patterns and clauses, `PmSpec.legal` the static rules | induction over patterns, with an unparsing lemma per form; unique reading by a prefix argument; counterexamples for literals inside calls and for nested `?` |
| C136–C138 | three small semantics in `PmSpec`: `Matches` (APS), `applies` (Scala), `cval`/`declared` (C++), over trees and sequences | mutual induction over patterns and sequences of patterns; the agreement theorem composes the two meaning theorems |
| C139 | `pattern_decl_clauses` | computation: the tokens printed never begin with `case` |
| C140 | `PmExpr.dump_exp` (expressions as trees), `means` (source values), `run` (values of printed code) | mutual induction over expressions and actuals |
| C141–C144 | `LxModel`: the rules of aps.lex as regular expressions, the automaton as derivatives, flex's loop (longest match, first rule, trailing context) and the actions; `LxSpec`: languages of regular expressions, the written form of tokens, what may follow a token, `Spelled` texts | derivatives are correct for `L`; the loop finds `flex_choice`; per token form a lemma on the longest match; induction over `Spelled` and over the list of lexemes |
| C145 | `make_code_name` and the computed table `translate` | the table is injective on operator characters by computation over the 17 characters, then lifted to lists |
| C146 | the action for `_` with its counter and buffer | induction over the lexemes with the counter; decimal numerals are injective |
| C147, C148 | `RdModel`: `set_aps_path` with its pointer, `aps_open` with its buffer, `find_Program` with the table of programs, over an arbitrary constant file system whose files are parsed units; `RdSpec.first_on_path` and `contents` | induction over the path, the string and the list of requests with an invariant on the table; counterexamples by computation |
| C149 | `bind_program` with the flags, the nested reading of with units and the scopes built | induction on the depth of calls with an extension relation between states; depth is bounded by the limit of 100 programs |
| C150, C151 | `program_id`, `make_implicit_name` | the last underscore separates the number; cleaning is the identity on identifiers |
| C152, C153 | `OaModel`: `compute_oag` over the models of `dnc_close`, the cycle test, `schedule_summary` and `schedule_rest` | forcing the order of phases keeps a weaker invariant (which dependencies there are, whatever their kinds) under which closing ends and re-establishes the full one; then C46 and C47 at each step |
| C154 | `LxModel` rules 16 to 19 | the longest match from a quote, closed or broken off, by induction on the text inside |
| C155 | `OaModel` and `StModel` together | the orders of C153 are those the scheduler finds in the final graphs (later closings leave a scheduled graph alone), and the forced order of phases gives the premises of C116 |
| C156 | `AnModel.v`: `analyze_thing` over `DncModel`, `CycleModel`, `UpDownModel`, `OaModel` | C44 bounds every chain by the joined kind; the bits of a chain's kind are the join (value) and meet (simple) of its dependencies'; C153 for the acyclic case |
| C157 | `AnModel.v`: `assert_circular_declaration` | by C45 an instance has a root in parent_index iff it is circular; the nested loops are a flat_map over all instances |
| C158 | as C156 and C157 | refuted by concrete grammars, computed |
| C159 | `InitModel.v`: `init_analysis_state` on top of `GbModel` and the edge store of `EdgeModel` | induction over the rules; adding edges keeps "every edge has its first and direct bit"; places of nodes from the list of items |
| C160 | as C159, C121 and C44 | an influence gives an edge (C121, edges decidable), sameness gives equal positions in summary graphs; chains of the text map to chains of C44 |
| C161 | `OrdModel.v`: `instance_condition`, `fibered_attr_direction` and `init_decl_cond` on the instances of `GbModel`; `analyze_thing` of `AnModel` on the state of `InitModel` | the condition of an instance is met iff its declaration is executed or its test made (C120, declarations counted); influence gives an edge (C121) which the closure and the schedules keep; then C153; orders for outcomes that agree so far share a prefix |
| C162 | `PropsPlan.v`, `PropsFlag.v`: as C161, with the schedules of C152/C153 | the schedule of a phylum read by attribute and fiber is the plan; the places of the nodes in a rule have the labels of the phylum (C159), so phases at the places are the plan at the nodes; the phase order kept by `schedule_rest` is the order of the plan |

Not expressible in this kind of model (and therefore not claimed): memory
exhaustion, C stack depth, timing, the text of messages, and the behaviour of
the C++ compiler on the generated code.


## Trusted base

* The kernel of Coq 8.16.1 (with its `vm_compute`, used in examples, witnesses and
  a few decidable side conditions) and the standard library.
* `Print Assumptions` says "Closed under the global context" for every theorem
  named in MANIFEST.json: no axiom is used, neither our own nor the standard
  library's.  (Axioms that a scan of the loaded libraries finds, such as those of
  `Coq.ssr.ssrunder`, are loaded with the standard library and used by no theorem.)
  No kernel check is switched off, nothing is admitted; sections are closed, so
  section hypotheses appear as premises of the final statements.
* The reading of the C/C++ text by the model.  Every definition cites the lines it
  models and says what it leaves out.  Common to all models:
  - memory is unlimited: allocation succeeds, the C stack does not overflow;
    pointers are fresh numbers (where addresses matter, e.g. for hashing and for
    sorted sets of pointers, they are arbitrary subject to stated alignment and
    range, so theorems hold for every placement);
  - int is 32 bits and two's complement; signed overflow is UB in the model where
    the code can reach it (primes, integer strings, indices);
  - output (debugging prints, messages) is left out, except where the text is the
    property (C34-C35, C50); checks that only warn are left out;
  - classes of the Scala and Java libraries (`List`, `ListSet`, `TreeMap`, `String`) behave
    as documented;
  - HALLOC memory is taken to be zeroed in one place (`cto_if_true` of nodes that
    are not tests, aps-schedule.c), as said at the definition.

### What is modelled

utilities/ (hashtable.c, hashcons.c, prime.c, stack.c, scc.c), base/cpp (basic
types and collections, attributes, tables), parse/ (alloc, symbol tables, ropes),
analyze/: alist.c, aps-cond.c, aps-scc.c, the edge sets, worklists, closure and iteration
of aps-dnc.c and the construction of the graph of a top-level match there, the union-find and cycle breaking of aps-cycle.c, aps-oag.c's
scheduling, the automaton part of aps-fiber.c, including the analysis of a whole grammar (compute_oag), aps-schedule.c's phases, chunks,
scheduler and checks, and the tables and orders of canonical-type.c and
canonical-signature.c (not the computation of canonical types from programs), type checking of expressions, patterns and statements with inference for polymorphic uses
(aps-type.c), the
binding of simple names and the threading of lists in aps-bind.c (not services,
extensions, pragmas), and in codegen/ the visit procedures of static-scc-impl.cc and static-impl.cc (with
the text of expressions and patterns opaque; for the latter the generated programs are
run on trees), and of the Scala runtime the demand-driven
evaluation in base/scala/aps-impl.scala (`Evaluation`, `CollectionEvaluation`,
`CircularEvaluation`, `CircularHelper`), numbers, lists, strings, multisets, sets and
lattices of basic.handcode.scala, tables and symbols, and base/flat.aps, nodes, phyla,
attributes of nodes and sequences of the Scala runtime, and the dynamic code
generator aps2scala/dyn-impl.cc (with the text of expressions and patterns opaque), the printing of patterns
and expressions by both back ends (as tokens resp. trees).  The exact functions are the ones cited in the Model files and in the
anchors of properties.jsonl.

### What is not modelled

The grammar (aps.y), keyword and fixity lookup in the scanner (the rest of parse/aps.lex is modelled, as are the search path and program table of analyze/aps-read.c and bind_Program's reading of with units), the services of types and pragmas (aps-bind.c), the parts of type checking (aps-type.c)
that deal with qualified types, classes and services of module instances, the
rest of canonical-type.c and canonical-signature.c, the construction of the initial
dependency graphs of function bodies and module-level declarations, of procedure calls, and the flags of instances
(aps-dnc.c; that of rules, and the whole initial state for modules of rules, is modelled, from a given text with names resolved), the construction
of the fiber automaton from programs (build_FSA), the alternative fiber analyses
(aps-fiber-AI.c, aps-fiber-callsite.c), the code generators (apscpp, aps2scala,
codegen; except the visit procedures of static-scc-impl.cc and static-impl.cc, aps2scala/dyn-impl.cc, and patterns and expressions) and the rest of the Scala runtime.  Theorems about later passes therefore quantify over
all graphs/rules that satisfy their stated well-formedness conditions, whether or
not an APS program gives rise to them.
