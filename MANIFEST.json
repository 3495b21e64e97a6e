{
 "claims": [
  {
   "property": "C01",
   "status": "proved",
   "theorems": [
    "C01_next_twin_prime_least"
   ],
   "note": ""
  },
  {
   "property": "C02",
   "status": "proved",
   "theorems": [
    "C02_negative_never_returns",
    "C02_negative_overflows"
   ],
   "note": "holds for every reachable sieve"
  },
  {
   "property": "C03",
   "status": "proved",
   "theorems": [
    "C03_stack_lifo"
   ],
   "note": "freed cells are never reused by the modelled allocator"
  },
  {
   "property": "C04",
   "status": "proved",
   "theorems": [
    "C04_hash_table_is_map",
    "C04_null_key_exits"
   ],
   "note": ""
  },
  {
   "property": "C05",
   "status": "proved",
   "theorems": [
    "C05_hash_table_total"
   ],
   "note": "proved for the larger class of histories that also contain removals"
  },
  {
   "property": "C06",
   "status": "partial",
   "theorems": [
    "C06_remove_partial",
    "C06_remove_loses_other_keys_refuted"
   ],
   "note": "the part about other keys is false of the code: removal cuts probe chains; counterexample proved"
  },
  {
   "property": "C07",
   "status": "partial",
   "theorems": [
    "C07_null_key_refuted",
    "C07_cleared_table_unusable_refuted",
    "C04_null_key_exits"
   ],
   "note": "false of the code; the negation is proved for every reachable table"
  },
  {
   "property": "C08",
   "status": "proved",
   "theorems": [
    "C08_hash_consing"
   ],
   "note": ""
  },
  {
   "property": "C09",
   "status": "proved",
   "theorems": [
    "C09_objects_stable"
   ],
   "note": "the modelled heap only grows; that no call frees or overwrites an object is read off the code (there is no free of an object in hashcons.c)"
  },
  {
   "property": "C10",
   "status": "proved",
   "theorems": [
    "C10_sets_canonical",
    "C10_high_addresses_refuted"
   ],
   "note": "with the refutation for addresses at or above 2^63"
  },
  {
   "property": "C11",
   "status": "proved",
   "theorems": [
    "C11_new_set_sorts"
   ],
   "note": "with the example C11_case for duplicates"
  },
  {
   "property": "C15",
   "status": "partial",
   "theorems": [
    "C15_hash_string_partial",
    "C15_hash_string_refuted",
    "C15_hash_mix"
   ],
   "note": "totality is false of the code: every string longer than 10 characters overflows a signed long"
  },
  {
   "property": "C12",
   "status": "proved",
   "theorems": [
    "C12_scc_classes"
   ],
   "note": ""
  },
  {
   "property": "C13",
   "status": "proved",
   "theorems": [
    "C13_scc_topological"
   ],
   "note": ""
  },
  {
   "property": "C14",
   "status": "partial",
   "theorems": [
    "C14_construction_partial",
    "C14_null_end_point_refuted"
   ],
   "note": "false of the code for a NULL end point (recorded as an edge of the first vertex); everything else proved"
  },
  {
   "property": "C16",
   "status": "proved",
   "theorems": [
    "C16_reads_like_sequence"
   ],
   "note": "int overflow of lengths above INT_MAX is not modelled"
  },
  {
   "property": "C17",
   "status": "proved",
   "theorems": [
    "C17_subseq",
    "C17_derived",
    "C17_from_end_refuted"
   ],
   "note": "subseq_from_end does not compile (pointer minus int) and is not modelled"
  },
  {
   "property": "C18",
   "status": "proved",
   "theorems": [
    "C18_equal",
    "C18_shape_independent"
   ],
   "note": ""
  },
  {
   "property": "C19",
   "status": "proved",
   "theorems": [
    "C19_set_algebra"
   ],
   "note": ""
  },
  {
   "property": "C20",
   "status": "proved",
   "theorems": [
    "C20_no_duplicates"
   ],
   "note": ""
  },
  {
   "property": "C21",
   "status": "proved",
   "theorems": [
    "C21_integer_string",
    "C21_injective",
    "C21_INT_MIN"
   ],
   "note": ""
  },
  {
   "property": "C22",
   "status": "partial",
   "theorems": [
    "C22_string_butsubseq_partial",
    "C22_string_subseq_refuted",
    "C22_string_subseq_from_zero"
   ],
   "note": "false of the code for subseq, subseq_from_end, butsubseq_from_end"
  },
  {
   "property": "C50",
   "status": "partial",
   "theorems": [
    "C50_to_string_partial",
    "C50_to_string_refuted"
   ],
   "note": "with exactly five elements dots may be printed wrongly; otherwise exact"
  },
  {
   "property": "C51",
   "status": "partial",
   "theorems": [
    "C51_range_partial",
    "C51_range_refuted"
   ],
   "note": "diverges for every negative lower bound"
  },
  {
   "property": "C52",
   "status": "partial",
   "theorems": [
    "C52_string_reads_like_sequence_partial",
    "C52_position_from_end_refuted",
    "C52_position_from_end_partial"
   ],
   "note": "position_from_end is right only when the element occurs at most once"
  },
  {
   "property": "C25",
   "status": "proved",
   "theorems": [
    "C25_demand_values",
    "C25_value_unique",
    "C25_acyclic_answered"
   ],
   "note": "Every history of assign/evaluate/finish calls on non-circular, non-collection attributes whose equations demand only instances of the grammar; the equation is an arbitrary demand program; fuel above the number of instances is shown sufficient."
  },
  {
   "property": "C26",
   "status": "partial",
   "theorems": [
    "C26_cycles_reported",
    "C26_cyclic_only_on_cycles_refuted"
   ],
   "note": "Exact (iff) for equations that do not themselves throw; with throwing equations the converse is refuted: an instance whose compute threw stays in state CYCLE, so a second evaluate reports a cycle that does not exist."
  },
  {
   "property": "C27",
   "status": "proved",
   "theorems": [
    "C27_assign_until_evaluated",
    "C27_assigned_value"
   ],
   "note": "First theorem for all attribute kinds, second for non-circular ones."
  },
  {
   "property": "C28",
   "status": "proved",
   "theorems": [
    "C28_collection_folds"
   ],
   "note": "Histories of set/assign/get before evaluation, and the evaluate after them. With no contributions evaluate runs compute instead."
  },
  {
   "property": "C29",
   "status": "partial",
   "theorems": [
    "C29_least_fixed_point_refuted",
    "C29_never_above_a_solution_partial"
   ],
   "note": "The property as stated is false: refuted by a two-attribute monotone system. Proved instead: no value ever exceeds any solution."
  },
  {
   "property": "C30",
   "status": "partial",
   "theorems": [
    "C30_stops_at_fixed_point",
    "C30_clear_pending",
    "C30_pending_iteration_defined_refuted"
   ],
   "note": "Proved for every return; refuted as to always being defined: a vector reallocation during the loop invalidates the iterator (undefined behaviour)."
  },
  {
   "property": "C23",
   "status": "partial",
   "theorems": [
    "C23_combine",
    "C23_select",
    "C23_tree",
    "C23_persistent_refuted"
   ],
   "note": "Per-key fold proved for every tree; 'arguments unchanged' proved except for a first argument that is itself a combination, for which it is refuted."
  },
  {
   "property": "C24",
   "status": "proved",
   "theorems": [
    "C24_phylum_numbering",
    "C24_numbers_stable"
   ],
   "note": "A constructor with a wrong tag throws but is still counted."
  },
  {
   "property": "C31",
   "status": "proved",
   "theorems": [
    "C31_allocations",
    "C31_request"
   ],
   "note": "Addresses unbounded; malloc an arbitrary oracle meeting malloc_ok. Two boundary facts: HALLOC/SALLOC(0) before the first block returns NULL; a request of exactly BLOCKSIZE may succeed (at the start of a block), larger ones always exit."
  },
  {
   "property": "C32",
   "status": "proved",
   "theorems": [
    "C32_release",
    "C31_allocations"
   ],
   "note": ""
  },
  {
   "property": "C33",
   "status": "proved",
   "theorems": [
    "C33_interned",
    "C33_capacity"
   ],
   "note": ""
  },
  {
   "property": "C34",
   "status": "partial",
   "theorems": [
    "C34_make_string",
    "C34_make_saved_string",
    "C34_conc",
    "C34_length",
    "C34_realize",
    "C34_print",
    "C34_substitute",
    "C34_unsigned_char_refuted"
   ],
   "note": "Proved where plain char is signed; refuted where it is unsigned (first byte 128). Length exact up to INT_MAX, undefined above."
  },
  {
   "property": "C35",
   "status": "partial",
   "theorems": [
    "C35_integer_string_refuted",
    "C35_intended_tag_refuted",
    "C35_bad_base"
   ],
   "note": "False of the code: every integer string read is undefined behaviour."
  },
  {
   "property": "C36",
   "status": "proved",
   "theorems": [
    "C36_table_history",
    "C36_no_duplicate_keys"
   ],
   "note": ""
  },
  {
   "property": "C37",
   "status": "proved",
   "theorems": [
    "C37_cond_compare",
    "C37_complements",
    "C37_unsatisfiable_not_exact"
   ],
   "note": ""
  },
  {
   "property": "C38",
   "status": "proved",
   "theorems": [
    "C38_join",
    "C38_trans",
    "C38_trans_bits",
    "C38_indirect"
   ],
   "note": ""
  },
  {
   "property": "C39",
   "status": "proved",
   "theorems": [
    "C39_add_edge"
   ],
   "note": "For every graph reached by a history of the operations, on the pointer structures."
  },
  {
   "property": "C40",
   "status": "proved",
   "theorems": [
    "C40_no_corruption",
    "C40_queue",
    "C40_take_head",
    "C40_add_edge",
    "C40_remove"
   ],
   "note": "Histories over several graphs sharing the edge heap and free list."
  },
  {
   "property": "C41",
   "status": "proved",
   "theorems": [
    "C41_summary_closure"
   ],
   "note": ""
  },
  {
   "property": "C42",
   "status": "proved",
   "theorems": [
    "C42_worklist_closure",
    "C42_worklist_closure_start"
   ],
   "note": "On the pointer structures; per outcome of the conditions, least among all closed matrices."
  },
  {
   "property": "C43",
   "status": "proved",
   "theorems": [
    "C43_dnc_close",
    "C43_dnc_close_start"
   ],
   "note": "On the pointer structures, with termination. For a function's summary the code only transfers summary to call sites, so agreement is one-directional there."
  },
  {
   "property": "C44",
   "status": "proved",
   "theorems": [
    "C44_covered",
    "C44_cycle_test"
   ],
   "note": "For every finite syntax tree with every outcome of the conditions at each occurrence; dependencies through calls are those the graphs themselves carry. Also: the reported kind bounds the kind of every cycle, and consists of the graphs' self-dependencies."
  },
  {
   "property": "C45",
   "status": "proved",
   "theorems": [
    "C45_cycles",
    "C45_after_dnc"
   ],
   "note": "For either evaluation order of merge_sets' operands; C45_after_dnc shows the hypothesis holds of every state the DNC iteration ends in."
  },
  {
   "property": "C46",
   "status": "proved",
   "theorems": [
    "C46_summary_schedule"
   ],
   "note": "Every summary matrix: the call either returns a schedule with all the stated properties, or exits, and it exits exactly when no schedule exists (a cycle or a local instance)."
  },
  {
   "property": "C47",
   "status": "proved",
   "theorems": [
    "C47_order",
    "C47_total",
    "C47_complete",
    "C47_complete_analysed",
    "C47_exact"
   ],
   "note": "The last three under hypotheses on the graph (guarded conditions, distinct tests, tests needed) that are shown necessary by examples."
  },
  {
   "property": "C49",
   "status": "proved",
   "theorems": [
    "C49_phylum_components",
    "C49_aug_components",
    "C49_no_instances"
   ],
   "note": "For production graphs the exact condition is stated: a self dependency, or a cycle of edges between instances whose conditions do not exclude each other. A graph without instances stops the program."
  },
  {
   "property": "C48",
   "status": "partial",
   "theorems": [
    "C48_break_cycles",
    "C48_conditions_refuted"
   ],
   "note": "Exact for every grammar and every direction flags if the conditions on the edges between any two groups can hold together; refuted otherwise."
  },
  {
   "property": "C53",
   "status": "partial",
   "theorems": [
    "C53_acyclic_refuted"
   ],
   "note": "False of the code."
  },
  {
   "property": "C54",
   "status": "partial",
   "theorems": [
    "C54_automaton",
    "C54_closure",
    "C54_size_refuted"
   ],
   "note": "Proved for programs that fit the tables (1800 nodes); refuted beyond: the size is never checked."
  },
  {
   "property": "C55",
   "status": "proved",
   "theorems": [
    "C55_states"
   ],
   "note": "For every automaton that fits the tables. The cycle test compares the nodes entered before the closure by their sum, so a chain can pass through the same nodes twice (C55_repeated_example)."
  },
  {
   "property": "C56",
   "status": "partial",
   "theorems": [
    "C56_modifiers_partial",
    "C56_modifiers_refuted"
   ],
   "note": "A fiber found is always right; found always only if no two letters lead to the same nodes. Refuted otherwise."
  },
  {
   "property": "C57",
   "status": "proved",
   "theorems": [
    "C57_fiber_set"
   ],
   "note": "build_FSA itself is not modelled; the proviso on the fibers on the way is necessary (C57_gap_example)."
  },
  {
   "property": "C58",
   "status": "partial",
   "theorems": [
    "C58_phases_partial",
    "C58_phases_with_enough_tables",
    "C58_overflow",
    "C58_refuted"
   ],
   "note": "Proved for every graph up to the overrun of the phase tables, in full if the tables had 2n+2 entries; the overrun is characterised exactly and shown to happen for two attributes that depend on each other."
  },
  {
   "property": "C59",
   "status": "partial",
   "theorems": [
    "C59_chunks",
    "C59_overflow",
    "C59_refuted"
   ],
   "note": "Proved for all rules with at most ten chunks per instance; the table is overrun exactly otherwise, witness included."
  },
  {
   "property": "C60",
   "status": "partial",
   "theorems": [
    "C60_checks_partial",
    "C60_refuted"
   ],
   "note": "What the checks do guarantee is proved for all trees; refuted: a tree that skips a child's visit for one outcome of a test passes. Condition #5 of the code only warns and is not modelled."
  },
  {
   "property": "C61",
   "status": "partial",
   "theorems": [
    "C61_order_partial",
    "C61_refuted",
    "C61_refuted_dropped"
   ],
   "note": "Proved for rules without circular phases where dependencies inside a phase follow the numbering and nothing depends on the last synthesized attributes; refuted without either. Missing: circular phases."
  },
  {
   "property": "C62",
   "status": "partial",
   "theorems": [
    "C61_order_partial",
    "C62_refuted"
   ],
   "note": "Termination is proved for the rules of C61; refuted for a rule with a circular phase of the node in which two visits of children that are not circular depend on each other (we do not know whether the earlier passes can produce such a rule)."
  },
  {
   "property": "C63",
   "status": "partial",
   "theorems": [
    "C63_types_partial",
    "C63_plain",
    "C63_refuted"
   ],
   "note": "Proved for all histories in which no hash overflows a long (C63_plain: a sufficient condition); refuted otherwise: undefined behaviour for a function of four parameters. NULL types (after errors) are not modelled."
  },
  {
   "property": "C64",
   "status": "partial",
   "theorems": [
    "C64_signatures_partial",
    "C63_plain"
   ],
   "note": "As C63."
  },
  {
   "property": "C65",
   "status": "proved",
   "theorems": [
    "C65_compare",
    "C65_printed",
    "C65_deterministic"
   ],
   "note": "For all histories without overflow of a hash (C63)."
  },
  {
   "property": "C66",
   "status": "partial",
   "theorems": [
    "C66_refuted",
    "C66_with_memory"
   ],
   "note": "Refuted for every signature with an actual (alloca is given the number of actuals, not of bytes); with eight bytes per actual the loops would be the substitution. The base types of the actuals and the join are parameters; only the case of a type use as source."
  },
  {
   "property": "C67",
   "status": "partial",
   "theorems": [
    "C67_binding",
    "C67_reported",
    "C67_no_silent",
    "C67_only_uses",
    "C67_all",
    "C67_refuted_spurious"
   ],
   "note": "The bindings of simple uses are proved for all programs, and when a use is reported exactly; refuted: a use reported although bound in the end. Missing: qualified uses (services); what an extension contributes is given, not computed."
  },
  {
   "property": "C68",
   "status": "partial",
   "theorems": [
    "C68_sound",
    "C68_complete",
    "C68_exact",
    "C68_refuted_missed",
    "C68_refuted_self"
   ],
   "note": "Sound for all programs; exact where nothing is seen through a polymorphic declaration or an extension; refuted otherwise."
  },
  {
   "property": "C69",
   "status": "proved",
   "theorems": [
    "C69_walk",
    "C69_first"
   ],
   "note": "For all programs in which no node is in two lists of one phylum; includes termination. The header field of matches is not modelled."
  },
  {
   "property": "C70",
   "status": "proved",
   "theorems": [
    "C70_program"
   ],
   "note": "For all trees. Expressions and patterns are opaque."
  },
  {
   "property": "C71",
   "status": "proved",
   "theorems": [
    "C71_visits",
    "C71_one",
    "C71_order",
    "C71_children"
   ],
   "note": "For every rule that is scheduled, with one instance per test and no for-in (C75 says what happens then); that the order is right is C61."
  },
  {
   "property": "C72",
   "status": "partial",
   "theorems": [
    "C72_flat",
    "C72_inside",
    "C72_refuted_mutual",
    "C72_refuted_first"
   ],
   "note": "Loops are not nested and circular actions are in loops if the order does not begin with one; refuted: a circular local that comes first has no loop, and locals that depend on each other have a loop each, so that the result is not a fixed point."
  },
  {
   "property": "C73",
   "status": "partial",
   "theorems": [
    "C73_assigned_partial",
    "C73_refuted"
   ],
   "note": "Proved when at most one of the blocks we are in has assignments of the instance; refuted: with two tests that both add to a collection one value is lost, and a default is assigned besides an assignment of the outer block."
  },
  {
   "property": "C74",
   "status": "partial",
   "theorems": [
    "C74_scrutinee_partial",
    "C74_refuted"
   ],
   "note": "Proved when the order has the matches of a case after its first one; refuted: the dependencies do not ensure that."
  },
  {
   "property": "C75",
   "status": "partial",
   "theorems": [
    "C75_rest_inside",
    "C75_refuted"
   ],
   "note": "Refuted: everything that comes later in the order is inside the for statement (for all orders); with an empty sequence a synthesized attribute is not assigned."
  },
  {
   "property": "C76",
   "status": "proved",
   "theorems": [
    "C76_demand",
    "C76_assign"
   ],
   "note": "For every life of the objects, including calls that threw. Assignments of circular attributes do fail: C82."
  },
  {
   "property": "C77",
   "status": "proved",
   "theorems": [
    "C77_idle",
    "C77_demand",
    "C77_assign",
    "C77_again"
   ],
   "note": "For all histories of calls that returned."
  },
  {
   "property": "C78",
   "status": "partial",
   "theorems": [
    "C78_equations_partial",
    "C78_refuted"
   ],
   "note": "Proved whenever no two cycles were merged (a property of the final state); refuted otherwise: four circular attributes with monotone programs, one of which is left with 0 although it is a copy of one with 1."
  },
  {
   "property": "C79",
   "status": "proved",
   "theorems": [
    "C79_bound",
    "C79_below"
   ],
   "note": "For every property of values that the programs respect, and for every upper solution."
  },
  {
   "property": "C80",
   "status": "proved",
   "theorems": [
    "C80_value",
    "C80_cycle",
    "C80_exceptions"
   ],
   "note": "Soundness and completeness against an inductive definition of the values; assignments come before demands (C83 shows why)."
  },
  {
   "property": "C81",
   "status": "partial",
   "theorems": [
    "C81_null_partial",
    "C81_refuted"
   ],
   "note": "Proved (for the values demanded) if all circular attributes are collections; refuted otherwise: only the attribute where the cycle is detected gets its default, other members of the cycle are null until they are computed."
  },
  {
   "property": "C82",
   "status": "partial",
   "theorems": [
    "C82_assign_partial",
    "C82_refuted"
   ],
   "note": "Proved for attributes that are not circular; refuted for every history for circular attributes that are no collections: the check of the new value uses the cycle of the attribute, which is null."
  },
  {
   "property": "C83",
   "status": "partial",
   "theorems": [
    "C83_late_partial",
    "C83_refuted"
   ],
   "note": "Assigning an evaluated attribute never succeeds; refuted: an attribute that was assigned, and used, can be assigned again."
  },
  {
   "property": "C84",
   "status": "partial",
   "theorems": [
    "C84_order_partial",
    "C84_plain",
    "C84_refuted",
    "C84_first_refuted"
   ],
   "note": "Proved without circular attributes; and, with monotone programs that always read the same attributes, for pairs of histories in which no cycles were merged; refuted otherwise, even for the attribute demanded."
  },
  {
   "property": "C85",
   "status": "partial",
   "theorems": [
    "C85_circular_partial",
    "C85_refuted"
   ],
   "note": "Proved if no cycles were merged; refuted otherwise: the recomputation of a cycle can read an attribute that is not circular and evaluated before."
  },
  {
   "property": "C86",
   "status": "partial",
   "theorems": [
    "C86_power_cpp",
    "C86_power_negative",
    "C86_power_partial",
    "C86_power_refuted"
   ],
   "note": "Proved with the odd of C++ (and, in Scala, up to the square); refuted for Scala: its odd tests for even numbers, and the result is too small for every base >= 2 and every exponent >= 3."
  },
  {
   "property": "C87",
   "status": "partial",
   "theorems": [
    "C87_range_partial",
    "C87_range_refuted"
   ],
   "note": "Proved for 0 <= x and y <= 2^30, and for empty or one element ranges; in all other cases the recursion never ends (x < 0: the middle is rounded towards y; larger: the sum wraps around)."
  },
  {
   "property": "C88",
   "status": "partial",
   "theorems": [
    "C88_lists_partial",
    "C88_from_end_refuted"
   ],
   "note": "Proved except for position_from_end (always -1: it looks for the list in itself) and subseq_from_end/butsubseq_from_end (not supported)."
  },
  {
   "property": "C89",
   "status": "partial",
   "theorems": [
    "C89_strings_partial",
    "C89_position_refuted"
   ],
   "note": "Proved except for position and position_from_end, which ignore the character."
  },
  {
   "property": "C90",
   "status": "partial",
   "theorems": [
    "C90_multisets",
    "C90_member_partial",
    "C90_member_refuted"
   ],
   "note": "Proved; membership only if the equality of the element type is that of Scala, refuted for multisets of multisets."
  },
  {
   "property": "C91",
   "status": "partial",
   "theorems": [
    "C91_sets",
    "C91_element_equality_refuted"
   ],
   "note": "Proved with respect to the equality of Scala; refuted for element types with another equality."
  },
  {
   "property": "C92",
   "status": "proved",
   "theorems": [
    "C92_boolean",
    "C92_ordered"
   ],
   "note": "For all total orders with a least/greatest element."
  },
  {
   "property": "C93",
   "status": "proved",
   "theorems": [
    "C93_sets"
   ],
   "note": "Sets below the universe, in the case of INTERSECTION_LATTICE."
  },
  {
   "property": "C94",
   "status": "proved",
   "theorems": [
    "C94_tuples"
   ],
   "note": "For every lattice whose equality is that of Scala."
  },
  {
   "property": "C95",
   "status": "partial",
   "theorems": [
    "C95_flat_scala",
    "C95_lifted",
    "C95_flat_cpp_refuted"
   ],
   "note": "Proved for Scala (structural equality of case classes); refuted for C++ (equality of pointers): lifting a value twice gives two incomparable elements."
  },
  {
   "property": "C96",
   "status": "proved",
   "theorems": [
    "C96_tables",
    "C96_lattice"
   ],
   "note": "For totally ordered keys (symbols are not: C97)."
  },
  {
   "property": "C97",
   "status": "partial",
   "theorems": [
    "C97_symbols_partial",
    "C97_symbols_refuted"
   ],
   "note": "Hash codes are compared: transitive and total up to collisions; refuted by a collision, with which a balanced search tree cannot find one of its keys."
  },
  {
   "property": "C98",
   "status": "partial",
   "theorems": [
    "attribute_text_wellformed",
    "variable_text_wellformed",
    "function_text_wellformed",
    "local_text_wellformed",
    "text_determines_function",
    "text_determines_local_function",
    "functions_balanced",
    "inherited_collection_refuted"
   ],
   "note": "Proved except for inherited collection attributes, for which it is refuted in every case: a brace is closed that was not opened."
  },
  {
   "property": "C99",
   "status": "proved",
   "theorems": [
    "synthesized_value"
   ],
   "note": "Expressions, patterns and the values of other attributes are given by an arbitrary world."
  },
  {
   "property": "C100",
   "status": "partial",
   "theorems": [
    "inherited_value",
    "grandchild_refuted"
   ],
   "note": "Proved if the attribute of a node is assigned only where its parent is matched; refuted for assignments to nodes deeper in a nested pattern, which are ignored."
  },
  {
   "property": "C101",
   "status": "proved",
   "theorems": [
    "collection_value"
   ],
   "note": "Inherited collections: C98."
  },
  {
   "property": "C102",
   "status": "proved",
   "theorems": [
    "global_value",
    "global_collection_value"
   ],
   "note": ""
  },
  {
   "property": "C103",
   "status": "partial",
   "theorems": [
    "full_cases_partial",
    "empty_branch_refuted",
    "no_default_refuted"
   ],
   "note": "Proved if all branches of the case statements that assign the attribute do; refuted otherwise: a branch without an assignment is left out, so a later branch is executed instead, and without a default branch there is a MatchError instead of the default value."
  },
  {
   "property": "C104",
   "status": "partial",
   "theorems": [
    "function_value",
    "function_collection_value",
    "local_assignment_ignored_refuted"
   ],
   "note": "Proved for functions without assignments to variables; refuted for all others: the text does not depend on assignments to variables, which keep their initial values."
  },
  {
   "property": "C105",
   "status": "proved",
   "theorems": [
    "local_attribute_value",
    "local_collection_value",
    "every_local_attribute_value"
   ],
   "note": ""
  },
  {
   "property": "C106",
   "status": "proved",
   "theorems": [
    "constructor_registers",
    "nodes_numbered",
    "nodes_stable",
    "finished_phylum_fails"
   ],
   "note": "Object identities are numbers; the children of a node are its arguments of phylum type, as the generated constructors say."
  },
  {
   "property": "C107",
   "status": "partial",
   "theorems": [
    "constructor_succeeds",
    "parent_is_constructor",
    "parent_stable",
    "parents_partial",
    "failed_constructor_refuted"
   ],
   "note": "The last sentence is refuted for every failing call: the new node is registered first and the children before the bad one are adopted by it, so that no constructor accepts them any more. Without failed calls parents are exactly as stated."
  },
  {
   "property": "C108",
   "status": "proved",
   "theorems": [
    "rooted_is_below_start"
   ],
   "note": ""
  },
  {
   "property": "C109",
   "status": "proved",
   "theorems": [
    "own_evaluation",
    "evaluations_in_order"
   ],
   "note": "Histories of successful demands and assignments (an exception ends the history of the attribute); the needs of an evaluation are arbitrary, of the same attribute."
  },
  {
   "property": "C110",
   "status": "partial",
   "theorems": [
    "finish_values",
    "finish_values_exactly",
    "finish_succeeds",
    "finish_twice",
    "assign_accepted",
    "late_assign_refuted",
    "failed_start_refuted"
   ],
   "note": "The last sentence is refuted: evaluationStarted is never set, so an assignment is accepted exactly if that node has not been evaluated; an assigned value can be replaced after others were computed from it. failed_start_refuted: the garbage of a failed constructor of the start phylum counts as rooted. Needs are within one attribute."
  },
  {
   "property": "C111",
   "status": "proved",
   "theorems": [
    "sequence_nth",
    "sequence_position"
   ],
   "note": "Lengths below 2^31 (Int is Z)."
  },
  {
   "property": "C112",
   "status": "partial",
   "theorems": [
    "sequence_identity_partial",
    "sequence_equality_refuted"
   ],
   "note": "Refuted: indexOf and contains use the structural equality of case classes, the phylum's equality is identity. The partial theorem assumes that == tells the elements apart."
  },
  {
   "property": "C113",
   "status": "proved",
   "theorems": [
    "procedures_generated"
   ],
   "note": "The orders are conditional total orders as in C47. Legal orders: StSpec.legal."
  },
  {
   "property": "C114",
   "status": "proved",
   "theorems": [
    "evaluated_once",
    "all_procedures_exist"
   ],
   "note": "Statements and tests, not values: the outcomes of the tests are any function of node and test. Visits of a child go to its own rule (C118 says when)."
  },
  {
   "property": "C115",
   "status": "proved",
   "theorems": [
    "values_ready"
   ],
   "note": "Same attribute of the same node in the rules of the node and of its parent: StSpec.gives."
  },
  {
   "property": "C116",
   "status": "proved",
   "theorems": [
    "scheduled_orders_legal"
   ],
   "note": "The premises are the record StLink.analysed; ex_leaf shows one."
  },
  {
   "property": "C117",
   "status": "proved",
   "theorems": [
    "dependencies_ready"
   ],
   "note": "Dependencies of the graph of the rule at that node; those between nodes follow by going along `gives`."
  },
  {
   "property": "C118",
   "status": "partial",
   "theorems": [
    "dispatch_scala",
    "dispatch_cpp",
    "module_visit_root",
    "contribution_lost_refuted",
    "inherited_only_unvisited_refuted",
    "too_early_refuted",
    "interleaved_cases_refuted",
    "inner_roots_refuted",
    "constructor_without_rule_refuted"
   ],
   "note": "Positive: in Scala, and in C++ if all constructors before have rules, the procedure called is the one of the rule of the node's constructor; if the root is the only node of the start phylum, visit() is the evaluation of C114. Refuted for every rule with two assignments to one instance in a block (only the last is made, so contributions to a collection are lost), for every child with only inherited attributes (never visited), for assignments ordered before the first attribute of the node itself, for alternating case statements (`val node` is that of the last one), for start phyla that occur below the root (evaluated again), and in C++ after a constructor without a rule."
  },
  {
   "property": "C119",
   "status": "proved",
   "theorems": [
    "C119_instances",
    "C119_lookup"
   ],
   "note": "Rules, that is top-level matches; declarations, fibers and phyla are numbers. wanted (GbSpec) is the set of instances. `rule0_built` meets the hypotheses of C119-C122."
  },
  {
   "property": "C120",
   "status": "proved",
   "theorems": [
    "C120_numbers",
    "C120_too_many",
    "C120_statements",
    "C120_tests"
   ],
   "note": "executed and made (GbSpec) say which statements and tests are reached. With `for` the numbers of matches clash: C124."
  },
  {
   "property": "C121",
   "status": "proved",
   "theorems": [
    "C121_data",
    "C121_control",
    "C121_flow"
   ],
   "note": "GbSpec gives the values a rule computes over any interpretation of the operations, reading places and fields through fibers (`place`). plain and sometimes are the exclusions; C124 shows that they are needed."
  },
  {
   "property": "C122",
   "status": "proved",
   "theorems": [
    "C122_exact"
   ],
   "note": "Base edges (DEPENDENCY_NOT_JUST_FIBER); edges from tests are covered by C120/C121 only. apart: variables are not attributes."
  },
  {
   "property": "C123",
   "status": "proved",
   "theorems": [
    "C123_graph"
   ],
   "note": "The pool of edges is that of C39."
  },
  {
   "property": "C124",
   "status": "partial",
   "theorems": [
    "C124_conditional_variable_refuted",
    "C124_pattern_variable_refuted",
    "C124_collection_refuted",
    "C124_choice_refuted",
    "C124_node_variable_refuted",
    "C124_for_refuted",
    "C124_call_refuted",
    "C124_unconditional_refuted"
   ],
   "note": "Refuted: no edge from the test to a variable declared with an initial value below it, nor to a variable of a pattern; no edge from what the initial value of a collection reads; none from a condition within a choice of patterns to the test; none for an attribute of a node held in a variable; matches of `for` have no number of their own and use that of another test; a left-hand side that goes through a call reads an uninitialised variable; edges to variables of a pattern hold also where the pattern does not match. What remains holds: C120-C122."
  },
  {
   "property": "C125",
   "status": "proved",
   "theorems": [
    "C125_edges",
    "C125_fibers"
   ],
   "note": "GbFibSpec: reads, target, passes, flows, decided, links. Conditions of statements as in C120. `rule7_edges` meets the hypotheses."
  },
  {
   "property": "C126",
   "status": "proved",
   "theorems": [
    "C126_type_equality",
    "C126_cyclic_refuted"
   ],
   "note": "TySpec.same: least congruence with renamings and remote types. C126_cyclic_refuted: with a cyclic renaming no comparison ends (the hypothesis is needed; whether the binder reports such renamings is not modelled)."
  },
  {
   "property": "C127",
   "status": "proved",
   "theorems": [
    "C127_well_typed"
   ],
   "note": "TySpec.has_type/ok_stmt. wf_types (renamed types mention no formals of polymorphics, indices are distinct) is what the binder gives. `demo_well_typed` meets the hypotheses, `demo_ill_typed` shows that the conclusion is not trivial."
  },
  {
   "property": "C128",
   "status": "partial",
   "theorems": [
    "C128_patterns_partial",
    "C128_annotations_refuted"
   ],
   "note": "Proved for patterns without polymorphic constructors and with annotations only where the checker looks at them. Refuted in general: aps-type.c:1249 finds the type it has just stored, so a typed pattern in a position with a known type is never compared with its annotation, nor is what is inside it checked."
  },
  {
   "property": "C129",
   "status": "partial",
   "theorems": [
    "C129_bounds_partial"
   ],
   "note": "Only the element type of a signature is compared by the code (aps-type.c:2291-2316); membership in a class is not checked, so the full statement is false; what is checked holds at the end whatever was inferred later."
  },
  {
   "property": "C130",
   "status": "partial",
   "theorems": [
    "C130_no_crash_partial",
    "C130_no_crash_refuted"
   ],
   "note": "Proved when the types of polymorphic entities mention no type formals but those their uses instantiate. Refuted otherwise: for a type formal of the module around, aps-type.c:2379-2388 goes on with a null contour."
  },
  {
   "property": "C131",
   "status": "partial",
   "theorems": [
    "C131_constant_functions_partial",
    "C131_constant_functions_refuted"
   ],
   "note": "Proved for expressions visited against a known type. Refuted in general: the argument of a polymorphic function is visited by infer_expr_type, which has no such check; so is the operand of a renaming."
  },
  {
   "property": "C132",
   "status": "partial",
   "theorems": [
    "C132_no_false_alarms_partial",
    "C132_undefined_refuted"
   ],
   "note": "Proved for programs without polymorphic uses and `undefined`, with patterns whose type can be found (`direct`). Refuted in general: the argument `undefined` of a polymorphic function is reported. Termination is not part of the claim (Fuel)."
  },
  {
   "property": "C133",
   "status": "partial",
   "theorems": [
    "C133_later_partial",
    "C133_later_refuted"
   ],
   "note": "An answer given without an error is right. Refuted: a call of a polymorphic function that has only a sequence formal, with no arguments, is accepted with the type formal open; asking for the type of the function aborts."
  },
  {
   "property": "C134",
   "status": "partial",
   "theorems": [
    "scala_clause_iff_condition_last",
    "scala_clause_unique",
    "scala_literal_inside_refuted"
   ],
   "note": "Exactly characterised: what is printed is a clause iff the only condition is at the end of the whole pattern. Refuted in general: plus(?x,0) prints p_plus(_, v_x, v_c if (v_c==0)) without an error, for every constructor pattern with a literal inside. Types and expressions are single tokens."
  },
  {
   "property": "C135",
   "status": "partial",
   "theorems": [
    "scala_clause_legal_partial",
    "scala_pattern_independent_partial",
    "scala_flat_call_legal",
    "scala_unnamed_nested_refuted",
    "scala_pattern_depends_refuted"
   ],
   "note": "Proved when all variables are named, and for flat calls with any unnamed ones. Refuted in general: f(?,g(?)) binds v_0 twice (formal_count is reset by the inner call), and whether ?=f(?) is legal depends on the pattern printed before."
  },
  {
   "property": "C136",
   "status": "proved",
   "theorems": [
    "scala_clause_meaning"
   ],
   "note": "PmSpec.Matches against PmSpec.applies. `scala_meaning_case` is a concrete nested case."
  },
  {
   "property": "C137",
   "status": "partial",
   "theorems": [
    "cpp_condition_meaning_partial",
    "cpp_condition_unique",
    "cpp_rest_then_pattern_refuted"
   ],
   "note": "Proved: what matches satisfies the condition and the declarations are right; the converse and safety when ... ends its sequence pattern. Refuted in general: {...,?} has the condition true of the empty sequence, and for {?y,...,?x} the declarations fail on a one-element sequence."
  },
  {
   "property": "C138",
   "status": "proved",
   "theorems": [
    "back_ends_agree"
   ],
   "note": "For patterns accepted by both back ends whose Scala clause is legal (C135)."
  },
  {
   "property": "C139",
   "status": "partial",
   "theorems": [
    "scala_pattern_decl_refuted",
    "scala_pattern_decl_single"
   ],
   "note": "Refuted for every declaration with choices: x@case p is printed (dump-scala.cc:1368), which is not a clause; a declaration without a body never matches. Proved for a single pattern as a body (which the parser does not make: aps.y:645-658)."
  },
  {
   "property": "C140",
   "status": "partial",
   "theorems": [
    "expression_value_partial",
    "variadic_call_refuted",
    "call_passes"
   ],
   "note": "Proved for expressions with no call of a function with a sequence formal; for such a call the code passes an additional 0 (dump-scala.cc:2318-2323), refuting the general claim; call_passes says exactly what is passed. Expressions are trees of tokens: lexical layout is not modelled."
  },
  {
   "property": "C141",
   "status": "proved",
   "theorems": [
    "scanner_covers",
    "scanner_longest_match"
   ],
   "note": "The scanner is the derivative automaton of the rules with flex's loop; LxSpec.flex_choice is the longest-match-first-rule rule over the language LxSpec.L. Trailing contexts are cut off, so the lookahead character is scanned again."
  },
  {
   "property": "C142",
   "status": "partial",
   "theorems": [
    "spelled_tokens",
    "character_classes",
    "operator_before_comment_refuted",
    "operator_at_end_refuted"
   ],
   "note": "Proved for every text in LxSpec.Spelled, which asks operators to be followed by a character that is no operator character. Refuted without this: in 'x +--c' and at the end of a file the operator is reported as 'character ignored' and dropped, since the rules need a following character other than '-'. Keyword and fixity lookup of tokens is not modelled."
  },
  {
   "property": "C143",
   "status": "proved",
   "theorems": [
    "operator_lexemes",
    "no_comment_in_operator",
    "comment_skipped"
   ],
   "note": "Backquoted operators are names; their text is given too."
  },
  {
   "property": "C144",
   "status": "partial",
   "theorems": [
    "line_numbers_exact",
    "line_numbers_partial",
    "line_numbers_refuted"
   ],
   "note": "Exactly: line number plus the escaped newlines in earlier constants = newlines before. So right when no earlier constant has an escaped newline, and wrong after one (yylineno is only incremented by the rule for newline)."
  },
  {
   "property": "C145",
   "status": "partial",
   "theorems": [
    "code_names_distinct_partial",
    "code_names_are_identifiers",
    "long_operator_refuted"
   ],
   "note": "Distinct and identifiers for all operators of fewer than 16 characters; from 16 on every operator overflows special_buf[20]."
  },
  {
   "property": "C146",
   "status": "partial",
   "theorems": [
    "anonymous_names_partial",
    "anonymous_clash_refuted",
    "many_underscores_refuted"
   ],
   "note": "Distinct among themselves and from words written in the text; refuted for backquoted names (`_1` is the symbol of the first _), and the buffer of 10 characters overflows with enough of them."
  },
  {
   "property": "C147",
   "status": "proved",
   "theorems": [
    "path_split",
    "open_first"
   ],
   "note": "The wild pointer in the last round of the loop is never used; names that would not fit in the buffer are skipped (so the check in aps_open leaves exactly room for the slash and the NUL)."
  },
  {
   "property": "C148",
   "status": "partial",
   "theorems": [
    "program_of_name",
    "files_read_once",
    "find_stops",
    "directory_reread",
    "directory_confused_refuted"
   ],
   "note": "Proved for names without directories; find_stops gives the exact reasons to stop. Refuted for names with '/': the cache is keyed by the name without directories, so such a program is read again for every request, and afterwards the plain name gives it instead of its own file."
  },
  {
   "property": "C149",
   "status": "partial",
   "theorems": [
    "binding_ends",
    "bound_once",
    "with_scopes_partial",
    "directory_cycle_refuted"
   ],
   "note": "Ending and binding once hold for all file systems. Scopes and the set of programs read: when with units name no directories; otherwise a cyclic with runs into the limit of 100 programs. with_cycle_case is a concrete cycle. Declarations at top level other than those in KEYdeclaration are left out; duplicates are C68."
  },
  {
   "property": "C150",
   "status": "partial",
   "theorems": [
    "import_matches_partial",
    "program_ids_distinct",
    "program_ids_clash",
    "import_directory_refuted",
    "object_clash_refuted"
   ],
   "note": "Right for names without directories, and distinct for names of letters, digits and underscores. Refuted in general: with \"x/foo\" imports xfoo_implicit while foo_implicit is defined, and a-b and a_b define the same object."
  },
  {
   "property": "C151",
   "status": "partial",
   "theorems": [
    "implicit_names_distinct",
    "implicit_names_identifiers",
    "implicit_names_begin",
    "implicit_names_clash_refuted"
   ],
   "note": "Distinct in one program and between programs whose names differ in letters or digits; refuted for a-b and a_b."
  },
  {
   "property": "C152",
   "status": "proved",
   "theorems": [
    "C152_phyla"
   ],
   "note": "From the state dnc_close leaves when the cycle test is clear. Agreement (same_needs) is upwards with kinds, downwards as to which dependencies there are: the kinds of a summary graph are overwritten by the schedule, so synchronised of C43 does not hold of them."
  },
  {
   "property": "C153",
   "status": "proved",
   "theorems": [
    "C153_compute_oag"
   ],
   "note": "no_order says more than that the search failed: the conditions under which C47 gives an order do not hold of the graph. Debugging output (with its overrun of the instances array at aps-oag.c:334) is left out."
  },
  {
   "property": "C154",
   "status": "proved",
   "theorems": [
    "constant_or_reported",
    "constants_reported"
   ],
   "note": "The token of the broken constant is still returned to the parser (LEX_ERROR is assigned to yytoken and then overwritten), as the code does."
  },
  {
   "property": "C155",
   "status": "proved",
   "theorems": [
    "C155_evaluation"
   ],
   "note": "Joins C43, C152, C153 with C114 to C117: the premises of C116 about phases, edges and instances are now derived from the run of compute_oag. What remains assumed is in the statement (laid_out, tests_needed, cases_apart, begins, phases_used); C118 shows what happens without the last two. C155_example is a grammar that meets all of it, with its evaluation."
  },
  {
   "property": "C156",
   "status": "proved",
   "theorems": [
    "C156_let_through",
    "C156_not_dnc",
    "C156_acyclic"
   ],
   "note": "From the dependency graphs on, without SCC scheduling. After cycles have been broken (C48, C53) nothing is claimed about the orders, only that the final graphs are acyclic if the analysis does not give up."
  },
  {
   "property": "C157",
   "status": "proved",
   "theorems": [
    "C157_declarations",
    "C157_analysis"
   ],
   "note": "What is known of an attribute (is it a test, a function's result, ...) is given. The buffer for names is not modelled."
  },
  {
   "property": "C158",
   "status": "partial",
   "theorems": [
    "C156_together_refuted",
    "C156_once_refuted",
    "C157_unused_refuted"
   ],
   "note": "False of the code, in all three parts: the kinds of all cycles are joined before the decision; loop_required is only read with SCC scheduling (static-scc-impl.cc:898, dump-scala.cc:1607-1610), so with the default scheduling two circular attributes are each computed once; without any cycle the declarations are not checked. Each theorem is a concrete grammar."
  },
  {
   "property": "C159",
   "status": "proved",
   "theorems": [
    "C159_init",
    "C159_unknown"
   ],
   "note": "Fiber sets, attribute sets and resolved names are given. Calls, variables of the module and function bodies are not covered."
  },
  {
   "property": "C160",
   "status": "proved",
   "theorems": [
    "C160_text"
   ],
   "note": "Composition of C119-C121, C123, C159 with C43-C44. Data influences are for rules with plain bodies (no composite initial values, no conditions in choices); see C121. Examples: a grammar accepted with a four-step flow through a tree, one rejected with a cycle."
  },
  {
   "property": "C161",
   "status": "proved",
   "theorems": [
    "C161_orders"
   ],
   "note": "Composition of C159, C120-C121 with C153/C156. Every attribute must be flagged synthesized or inherited. Variables of patterns have no condition (init_decl_cond does not visit them), so they are visited always. Grammars of rules without calls or for, at most 32 tests a rule. Example: the orders of a left-to-right grammar with a test."
  },
  {
   "property": "C162",
   "status": "proved",
   "theorems": [
    "C162_plan"
   ],
   "note": "Same grammars as C161. That every attribute is inherited or synthesized is a conclusion, not a hypothesis. Proved when the analysis needs no fibre-cycle breaking (its messages are empty). Example: a phylum with two visits, and the schedules and orders computed for its grammar."
  }
 ]
}