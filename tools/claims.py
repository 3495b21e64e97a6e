c("C08","proved",["C08_hash_consing"])
c("C09","proved",["C09_objects_stable"],"the modelled heap only grows; that no call frees or overwrites an object is read off the code (there is no free of an object in hashcons.c)")
c("C10","proved",["C10_sets_canonical","C10_high_addresses_refuted"],"with the refutation for addresses at or above 2^63")
c("C11","proved",["C11_new_set_sorts"],"with the example C11_case for duplicates")
c("C15","partial",["C15_hash_string_partial","C15_hash_string_refuted","C15_hash_mix"],"totality is false of the code: every string longer than 10 characters overflows a signed long")
c("C12","proved",["C12_scc_classes"])
c("C13","proved",["C13_scc_topological"])
c("C14","partial",["C14_construction_partial","C14_null_end_point_refuted"],"false of the code for a NULL end point (recorded as an edge of the first vertex); everything else proved")

c("C16","proved",["C16_reads_like_sequence"],"int overflow of lengths above INT_MAX is not modelled")
c("C17","proved",["C17_subseq","C17_derived","C17_from_end_refuted"],"subseq_from_end does not compile (pointer minus int) and is not modelled")
c("C18","proved",["C18_equal","C18_shape_independent"])
c("C19","proved",["C19_set_algebra"])
c("C20","proved",["C20_no_duplicates"])
c("C21","proved",["C21_integer_string","C21_injective","C21_INT_MIN"])
c("C22","partial",["C22_string_butsubseq_partial","C22_string_subseq_refuted","C22_string_subseq_from_zero"],"false of the code for subseq, subseq_from_end, butsubseq_from_end")
c("C50","partial",["C50_to_string_partial","C50_to_string_refuted"],"with exactly five elements dots may be printed wrongly; otherwise exact")
c("C51","partial",["C51_range_partial","C51_range_refuted"],"diverges for every negative lower bound")
c("C52","partial",["C52_string_reads_like_sequence_partial","C52_position_from_end_refuted","C52_position_from_end_partial"],"position_from_end is right only when the element occurs at most once")
c("C25","proved",["C25_demand_values","C25_value_unique","C25_acyclic_answered"],"Every history of assign/evaluate/finish calls on non-circular, non-collection attributes whose equations demand only instances of the grammar; the equation is an arbitrary demand program; fuel above the number of instances is shown sufficient.")
c("C26","partial",["C26_cycles_reported","C26_cyclic_only_on_cycles_refuted"],"Exact (iff) for equations that do not themselves throw; with throwing equations the converse is refuted: an instance whose compute threw stays in state CYCLE, so a second evaluate reports a cycle that does not exist.")
c("C27","proved",["C27_assign_until_evaluated","C27_assigned_value"],"First theorem for all attribute kinds, second for non-circular ones.")
c("C28","proved",["C28_collection_folds"],"Histories of set/assign/get before evaluation, and the evaluate after them. With no contributions evaluate runs compute instead.")
c("C29","partial",["C29_least_fixed_point_refuted","C29_never_above_a_solution_partial"],"The property as stated is false: refuted by a two-attribute monotone system. Proved instead: no value ever exceeds any solution.")
c("C30","partial",["C30_stops_at_fixed_point","C30_clear_pending","C30_pending_iteration_defined_refuted"],"Proved for every return; refuted as to always being defined: a vector reallocation during the loop invalidates the iterator (undefined behaviour).")
c("C23","partial",["C23_combine","C23_select","C23_tree","C23_persistent_refuted"],"Per-key fold proved for every tree; 'arguments unchanged' proved except for a first argument that is itself a combination, for which it is refuted.")
c("C24","proved",["C24_phylum_numbering","C24_numbers_stable"],"A constructor with a wrong tag throws but is still counted.")
c("C31","proved",["C31_allocations","C31_request"],"Addresses unbounded; malloc an arbitrary oracle meeting malloc_ok. Two boundary facts: HALLOC/SALLOC(0) before the first block returns NULL; a request of exactly BLOCKSIZE may succeed (at the start of a block), larger ones always exit.")
c("C32","proved",["C32_release","C31_allocations"])
c("C33","proved",["C33_interned","C33_capacity"])
c("C34","partial",["C34_make_string","C34_make_saved_string","C34_conc","C34_length","C34_realize","C34_print","C34_substitute","C34_unsigned_char_refuted"],"Proved where plain char is signed; refuted where it is unsigned (first byte 128). Length exact up to INT_MAX, undefined above.")
c("C35","partial",["C35_integer_string_refuted","C35_intended_tag_refuted","C35_bad_base"],"False of the code: every integer string read is undefined behaviour.")
c("C36","proved",["C36_table_history","C36_no_duplicate_keys"])
c("C37","proved",["C37_cond_compare","C37_complements","C37_unsatisfiable_not_exact"])
c("C38","proved",["C38_join","C38_trans","C38_trans_bits","C38_indirect"])
c("C39","proved",["C39_add_edge"],"For every graph reached by a history of the operations, on the pointer structures.")
c("C40","proved",["C40_no_corruption","C40_queue","C40_take_head","C40_add_edge","C40_remove"],"Histories over several graphs sharing the edge heap and free list.")
c("C41","proved",["C41_summary_closure"])
c("C42","proved",["C42_worklist_closure","C42_worklist_closure_start"],"On the pointer structures; per outcome of the conditions, least among all closed matrices.")
c("C43","proved",["C43_dnc_close","C43_dnc_close_start"],"On the pointer structures, with termination. For a function's summary the code only transfers summary to call sites, so agreement is one-directional there.")
c("C44","proved",["C44_covered","C44_cycle_test"],"For every finite syntax tree with every outcome of the conditions at each occurrence; dependencies through calls are those the graphs themselves carry. Also: the reported kind bounds the kind of every cycle, and consists of the graphs' self-dependencies.")
c("C45","proved",["C45_cycles","C45_after_dnc"],"For either evaluation order of merge_sets' operands; C45_after_dnc shows the hypothesis holds of every state the DNC iteration ends in.")
c("C46","proved",["C46_summary_schedule"],"Every summary matrix: the call either returns a schedule with all the stated properties, or exits, and it exits exactly when no schedule exists (a cycle or a local instance).")
c("C47","proved",["C47_order","C47_total","C47_complete","C47_complete_analysed","C47_exact"],"The last three under hypotheses on the graph (guarded conditions, distinct tests, tests needed) that are shown necessary by examples.")
c("C49","proved",["C49_phylum_components","C49_aug_components","C49_no_instances"],"For production graphs the exact condition is stated: a self dependency, or a cycle of edges between instances whose conditions do not exclude each other. A graph without instances stops the program.")
c("C48","partial",["C48_break_cycles","C48_conditions_refuted"],"Exact for every grammar and every direction flags if the conditions on the edges between any two groups can hold together; refuted otherwise.")
c("C53","partial",["C53_acyclic_refuted"],"False of the code.")
c("C54","partial",["C54_automaton","C54_closure","C54_size_refuted"],"Proved for programs that fit the tables (1800 nodes); refuted beyond: the size is never checked.")
c("C55","proved",["C55_states"],"For every automaton that fits the tables. The cycle test compares the nodes entered before the closure by their sum, so a chain can pass through the same nodes twice (C55_repeated_example).")
c("C56","partial",["C56_modifiers_partial","C56_modifiers_refuted"],"A fiber found is always right; found always only if no two letters lead to the same nodes. Refuted otherwise.")
c("C57","proved",["C57_fiber_set"],"build_FSA itself is not modelled; the proviso on the fibers on the way is necessary (C57_gap_example).")
c("C58","partial",["C58_phases_partial","C58_phases_with_enough_tables","C58_overflow","C58_refuted"],"Proved for every graph up to the overrun of the phase tables, in full if the tables had 2n+2 entries; the overrun is characterised exactly and shown to happen for two attributes that depend on each other.")
c("C59","partial",["C59_chunks","C59_overflow","C59_refuted"],"Proved for all rules with at most ten chunks per instance; the table is overrun exactly otherwise, witness included.")
c("C60","partial",["C60_checks_partial","C60_refuted"],"What the checks do guarantee is proved for all trees; refuted: a tree that skips a child's visit for one outcome of a test passes. Condition #5 of the code only warns and is not modelled.")
c("C61","partial",["C61_order_partial","C61_refuted","C61_refuted_dropped"],"Proved for rules without circular phases where dependencies inside a phase follow the numbering and nothing depends on the last synthesized attributes; refuted without either. Missing: circular phases.")
c("C62","partial",["C61_order_partial","C62_refuted"],"Termination is proved for the rules of C61; refuted for a rule with a circular phase of the node in which two visits of children that are not circular depend on each other (we do not know whether the earlier passes can produce such a rule).")
c("C63","partial",["C63_types_partial","C63_plain","C63_refuted"],"Proved for all histories in which no hash overflows a long (C63_plain: a sufficient condition); refuted otherwise: undefined behaviour for a function of four parameters. NULL types (after errors) are not modelled.")
c("C64","partial",["C64_signatures_partial","C63_plain"],"As C63.")
c("C65","proved",["C65_compare","C65_printed","C65_deterministic"],"For all histories without overflow of a hash (C63).")
c("C66","partial",["C66_refuted","C66_with_memory"],"Refuted for every signature with an actual (alloca is given the number of actuals, not of bytes); with eight bytes per actual the loops would be the substitution. The base types of the actuals and the join are parameters; only the case of a type use as source.")
c("C67","partial",["C67_binding","C67_reported","C67_no_silent","C67_only_uses","C67_all","C67_refuted_spurious"],"The bindings of simple uses are proved for all programs, and when a use is reported exactly; refuted: a use reported although bound in the end. Missing: qualified uses (services); what an extension contributes is given, not computed.")
c("C68","partial",["C68_sound","C68_complete","C68_exact","C68_refuted_missed","C68_refuted_self"],"Sound for all programs; exact where nothing is seen through a polymorphic declaration or an extension; refuted otherwise.")
c("C69","proved",["C69_walk","C69_first"],"For all programs in which no node is in two lists of one phylum; includes termination. The header field of matches is not modelled.")
c("C70","proved",["C70_program"],"For all trees. Expressions and patterns are opaque.")
c("C71","proved",["C71_visits","C71_one","C71_order","C71_children"],"For every rule that is scheduled, with one instance per test and no for-in (C75 says what happens then); that the order is right is C61.")
c("C72","partial",["C72_flat","C72_inside","C72_refuted_mutual","C72_refuted_first"],"Loops are not nested and circular actions are in loops if the order does not begin with one; refuted: a circular local that comes first has no loop, and locals that depend on each other have a loop each, so that the result is not a fixed point.")
c("C73","partial",["C73_assigned_partial","C73_refuted"],"Proved when at most one of the blocks we are in has assignments of the instance; refuted: with two tests that both add to a collection one value is lost, and a default is assigned besides an assignment of the outer block.")
c("C74","partial",["C74_scrutinee_partial","C74_refuted"],"Proved when the order has the matches of a case after its first one; refuted: the dependencies do not ensure that.")
c("C75","partial",["C75_rest_inside","C75_refuted"],"Refuted: everything that comes later in the order is inside the for statement (for all orders); with an empty sequence a synthesized attribute is not assigned.")
c("C76","proved",["C76_demand","C76_assign"],"For every life of the objects, including calls that threw. Assignments of circular attributes do fail: C82.")
c("C77","proved",["C77_idle","C77_demand","C77_assign","C77_again"],"For all histories of calls that returned.")
c("C78","partial",["C78_equations_partial","C78_refuted"],"Proved whenever no two cycles were merged (a property of the final state); refuted otherwise: four circular attributes with monotone programs, one of which is left with 0 although it is a copy of one with 1.")
c("C79","proved",["C79_bound","C79_below"],"For every property of values that the programs respect, and for every upper solution.")
c("C80","proved",["C80_value","C80_cycle","C80_exceptions"],"Soundness and completeness against an inductive definition of the values; assignments come before demands (C83 shows why).")
c("C81","partial",["C81_null_partial","C81_refuted"],"Proved (for the values demanded) if all circular attributes are collections; refuted otherwise: only the attribute where the cycle is detected gets its default, other members of the cycle are null until they are computed.")
c("C82","partial",["C82_assign_partial","C82_refuted"],"Proved for attributes that are not circular; refuted for every history for circular attributes that are no collections: the check of the new value uses the cycle of the attribute, which is null.")
c("C83","partial",["C83_late_partial","C83_refuted"],"Assigning an evaluated attribute never succeeds; refuted: an attribute that was assigned, and used, can be assigned again.")
c("C84","partial",["C84_order_partial","C84_plain","C84_refuted","C84_first_refuted"],"Proved without circular attributes; and, with monotone programs that always read the same attributes, for pairs of histories in which no cycles were merged; refuted otherwise, even for the attribute demanded.")
c("C85","partial",["C85_circular_partial","C85_refuted"],"Proved if no cycles were merged; refuted otherwise: the recomputation of a cycle can read an attribute that is not circular and evaluated before.")
c("C86","partial",["C86_power_cpp","C86_power_negative","C86_power_partial","C86_power_refuted"],"Proved with the odd of C++ (and, in Scala, up to the square); refuted for Scala: its odd tests for even numbers, and the result is too small for every base >= 2 and every exponent >= 3.")
c("C87","partial",["C87_range_partial","C87_range_refuted"],"Proved for 0 <= x and y <= 2^30, and for empty or one element ranges; in all other cases the recursion never ends (x < 0: the middle is rounded towards y; larger: the sum wraps around).")
c("C88","partial",["C88_lists_partial","C88_from_end_refuted"],"Proved except for position_from_end (always -1: it looks for the list in itself) and subseq_from_end/butsubseq_from_end (not supported).")
c("C89","partial",["C89_strings_partial","C89_position_refuted"],"Proved except for position and position_from_end, which ignore the character.")
c("C90","partial",["C90_multisets","C90_member_partial","C90_member_refuted"],"Proved; membership only if the equality of the element type is that of Scala, refuted for multisets of multisets.")
c("C91","partial",["C91_sets","C91_element_equality_refuted"],"Proved with respect to the equality of Scala; refuted for element types with another equality.")
c("C92","proved",["C92_boolean","C92_ordered"],"For all total orders with a least/greatest element.")
c("C93","proved",["C93_sets"],"Sets below the universe, in the case of INTERSECTION_LATTICE.")
c("C94","proved",["C94_tuples"],"For every lattice whose equality is that of Scala.")
c("C95","partial",["C95_flat_scala","C95_lifted","C95_flat_cpp_refuted"],"Proved for Scala (structural equality of case classes); refuted for C++ (equality of pointers): lifting a value twice gives two incomparable elements.")
c("C96","proved",["C96_tables","C96_lattice"],"For totally ordered keys (symbols are not: C97).")
c("C97","partial",["C97_symbols_partial","C97_symbols_refuted"],"Hash codes are compared: transitive and total up to collisions; refuted by a collision, with which a balanced search tree cannot find one of its keys.")
c("C98","partial",["attribute_text_wellformed","variable_text_wellformed","function_text_wellformed","local_text_wellformed","text_determines_function","text_determines_local_function","functions_balanced","inherited_collection_refuted"],"Proved except for inherited collection attributes, for which it is refuted in every case: a brace is closed that was not opened.")
c("C99","proved",["synthesized_value"],"Expressions, patterns and the values of other attributes are given by an arbitrary world.")
c("C100","partial",["inherited_value","grandchild_refuted"],"Proved if the attribute of a node is assigned only where its parent is matched; refuted for assignments to nodes deeper in a nested pattern, which are ignored.")
c("C101","proved",["collection_value"],"Inherited collections: C98.")
c("C102","proved",["global_value","global_collection_value"],"")
c("C103","partial",["full_cases_partial","empty_branch_refuted","no_default_refuted"],"Proved if all branches of the case statements that assign the attribute do; refuted otherwise: a branch without an assignment is left out, so a later branch is executed instead, and without a default branch there is a MatchError instead of the default value.")
c("C104","partial",["function_value","function_collection_value","local_assignment_ignored_refuted"],"Proved for functions without assignments to variables; refuted for all others: the text does not depend on assignments to variables, which keep their initial values.")
c("C105","proved",["local_attribute_value","local_collection_value","every_local_attribute_value"],"")
c("C106","proved",["constructor_registers","nodes_numbered","nodes_stable","finished_phylum_fails"],
  "Object identities are numbers; the children of a node are its arguments of phylum type, as the generated constructors say.")
c("C107","partial",["constructor_succeeds","parent_is_constructor","parent_stable","parents_partial","failed_constructor_refuted"],
  "The last sentence is refuted for every failing call: the new node is registered first and the children before the bad one are adopted by it, so that no constructor accepts them any more. Without failed calls parents are exactly as stated.")
c("C108","proved",["rooted_is_below_start"],"")
c("C109","proved",["own_evaluation","evaluations_in_order"],
  "Histories of successful demands and assignments (an exception ends the history of the attribute); the needs of an evaluation are arbitrary, of the same attribute.")
c("C110","partial",["finish_values","finish_values_exactly","finish_succeeds","finish_twice","assign_accepted","late_assign_refuted","failed_start_refuted"],
  "The last sentence is refuted: evaluationStarted is never set, so an assignment is accepted exactly if that node has not been evaluated; an assigned value can be replaced after others were computed from it. failed_start_refuted: the garbage of a failed constructor of the start phylum counts as rooted. Needs are within one attribute.")
c("C111","proved",["sequence_nth","sequence_position"],"Lengths below 2^31 (Int is Z).")
c("C112","partial",["sequence_identity_partial","sequence_equality_refuted"],
  "Refuted: indexOf and contains use the structural equality of case classes, the phylum's equality is identity. The partial theorem assumes that == tells the elements apart.")
c("C113","proved",["procedures_generated"],"The orders are conditional total orders as in C47. Legal orders: StSpec.legal.")
c("C114","proved",["evaluated_once","all_procedures_exist"],"Statements and tests, not values: the outcomes of the tests are any function of node and test. Visits of a child go to its own rule (C118 says when).")
c("C115","proved",["values_ready"],"Same attribute of the same node in the rules of the node and of its parent: StSpec.gives.")
c("C116","proved",["scheduled_orders_legal"],"The premises are the record StLink.analysed; ex_leaf shows one.")
c("C117","proved",["dependencies_ready"],"Dependencies of the graph of the rule at that node; those between nodes follow by going along `gives`.")
c("C118","partial",["dispatch_scala","dispatch_cpp","module_visit_root","contribution_lost_refuted","inherited_only_unvisited_refuted","too_early_refuted","interleaved_cases_refuted","inner_roots_refuted","constructor_without_rule_refuted"],
  "Positive: in Scala, and in C++ if all constructors before have rules, the procedure called is the one of the rule of the node's constructor; if the root is the only node of the start phylum, visit() is the evaluation of C114. Refuted for every rule with two assignments to one instance in a block (only the last is made, so contributions to a collection are lost), for every child with only inherited attributes (never visited), for assignments ordered before the first attribute of the node itself, for alternating case statements (`val node` is that of the last one), for start phyla that occur below the root (evaluated again), and in C++ after a constructor without a rule.")
c("C119","proved",["C119_instances","C119_lookup"],"Rules, that is top-level matches; declarations, fibers and phyla are numbers. wanted (GbSpec) is the set of instances. `rule0_built` meets the hypotheses of C119-C122.")
c("C120","proved",["C120_numbers","C120_too_many","C120_statements","C120_tests"],"executed and made (GbSpec) say which statements and tests are reached. With `for` the numbers of matches clash: C124.")
c("C121","proved",["C121_data","C121_control","C121_flow"],"GbSpec gives the values a rule computes over any interpretation of the operations, reading places and fields through fibers (`place`). plain and sometimes are the exclusions; C124 shows that they are needed.")
c("C122","proved",["C122_exact"],"Base edges (DEPENDENCY_NOT_JUST_FIBER); edges from tests are covered by C120/C121 only. apart: variables are not attributes.")
c("C123","proved",["C123_graph"],"The pool of edges is that of C39.")
c("C124","partial",["C124_conditional_variable_refuted","C124_pattern_variable_refuted","C124_collection_refuted","C124_choice_refuted","C124_node_variable_refuted","C124_for_refuted","C124_call_refuted","C124_unconditional_refuted"],
  "Refuted: no edge from the test to a variable declared with an initial value below it, nor to a variable of a pattern; no edge from what the initial value of a collection reads; none from a condition within a choice of patterns to the test; none for an attribute of a node held in a variable; matches of `for` have no number of their own and use that of another test; a left-hand side that goes through a call reads an uninitialised variable; edges to variables of a pattern hold also where the pattern does not match. What remains holds: C120-C122.")
c("C125","proved",["C125_edges","C125_fibers"],"GbFibSpec: reads, target, passes, flows, decided, links. Conditions of statements as in C120. `rule7_edges` meets the hypotheses.")
c("C126","proved",["C126_type_equality","C126_cyclic_refuted"],"TySpec.same: least congruence with renamings and remote types. C126_cyclic_refuted: with a cyclic renaming no comparison ends (the hypothesis is needed; whether the binder reports such renamings is not modelled).")
c("C127","proved",["C127_well_typed"],"TySpec.has_type/ok_stmt. wf_types (renamed types mention no formals of polymorphics, indices are distinct) is what the binder gives. `demo_well_typed` meets the hypotheses, `demo_ill_typed` shows that the conclusion is not trivial.")
c("C128","partial",["C128_patterns_partial","C128_annotations_refuted"],"Proved for patterns without polymorphic constructors and with annotations only where the checker looks at them. Refuted in general: aps-type.c:1249 finds the type it has just stored, so a typed pattern in a position with a known type is never compared with its annotation, nor is what is inside it checked.")
c("C129","partial",["C129_bounds_partial"],"Only the element type of a signature is compared by the code (aps-type.c:2291-2316); membership in a class is not checked, so the full statement is false; what is checked holds at the end whatever was inferred later.")
c("C130","partial",["C130_no_crash_partial","C130_no_crash_refuted"],"Proved when the types of polymorphic entities mention no type formals but those their uses instantiate. Refuted otherwise: for a type formal of the module around, aps-type.c:2379-2388 goes on with a null contour.")
c("C131","partial",["C131_constant_functions_partial","C131_constant_functions_refuted"],"Proved for expressions visited against a known type. Refuted in general: the argument of a polymorphic function is visited by infer_expr_type, which has no such check; so is the operand of a renaming.")
c("C132","partial",["C132_no_false_alarms_partial","C132_undefined_refuted"],"Proved for programs without polymorphic uses and `undefined`, with patterns whose type can be found (`direct`). Refuted in general: the argument `undefined` of a polymorphic function is reported. Termination is not part of the claim (Fuel).")
c("C133","partial",["C133_later_partial","C133_later_refuted"],"An answer given without an error is right. Refuted: a call of a polymorphic function that has only a sequence formal, with no arguments, is accepted with the type formal open; asking for the type of the function aborts.")
c("C134","partial",["scala_clause_iff_condition_last","scala_clause_unique","scala_literal_inside_refuted"],"Exactly characterised: what is printed is a clause iff the only condition is at the end of the whole pattern. Refuted in general: plus(?x,0) prints p_plus(_, v_x, v_c if (v_c==0)) without an error, for every constructor pattern with a literal inside. Types and expressions are single tokens.")
c("C135","partial",["scala_clause_legal_partial","scala_pattern_independent_partial","scala_flat_call_legal","scala_unnamed_nested_refuted","scala_pattern_depends_refuted"],"Proved when all variables are named, and for flat calls with any unnamed ones. Refuted in general: f(?,g(?)) binds v_0 twice (formal_count is reset by the inner call), and whether ?=f(?) is legal depends on the pattern printed before.")
c("C136","proved",["scala_clause_meaning"],"PmSpec.Matches against PmSpec.applies. `scala_meaning_case` is a concrete nested case.")
c("C137","partial",["cpp_condition_meaning_partial","cpp_condition_unique","cpp_rest_then_pattern_refuted"],"Proved: what matches satisfies the condition and the declarations are right; the converse and safety when ... ends its sequence pattern. Refuted in general: {...,?} has the condition true of the empty sequence, and for {?y,...,?x} the declarations fail on a one-element sequence.")
c("C138","proved",["back_ends_agree"],"For patterns accepted by both back ends whose Scala clause is legal (C135).")
c("C139","partial",["scala_pattern_decl_refuted","scala_pattern_decl_single"],"Refuted for every declaration with choices: x@case p is printed (dump-scala.cc:1368), which is not a clause; a declaration without a body never matches. Proved for a single pattern as a body (which the parser does not make: aps.y:645-658).")
c("C140","partial",["expression_value_partial","variadic_call_refuted","call_passes"],"Proved for expressions with no call of a function with a sequence formal; for such a call the code passes an additional 0 (dump-scala.cc:2318-2323), refuting the general claim; call_passes says exactly what is passed. Expressions are trees of tokens: lexical layout is not modelled.")
c("C141","proved",["scanner_covers","scanner_longest_match"],"The scanner is the derivative automaton of the rules with flex's loop; LxSpec.flex_choice is the longest-match-first-rule rule over the language LxSpec.L. Trailing contexts are cut off, so the lookahead character is scanned again.")
c("C142","partial",["spelled_tokens","character_classes","operator_before_comment_refuted","operator_at_end_refuted"],"Proved for every text in LxSpec.Spelled, which asks operators to be followed by a character that is no operator character. Refuted without this: in 'x +--c' and at the end of a file the operator is reported as 'character ignored' and dropped, since the rules need a following character other than '-'. Keyword and fixity lookup of tokens is not modelled.")
c("C143","proved",["operator_lexemes","no_comment_in_operator","comment_skipped"],"Backquoted operators are names; their text is given too.")
c("C144","partial",["line_numbers_exact","line_numbers_partial","line_numbers_refuted"],"Exactly: line number plus the escaped newlines in earlier constants = newlines before. So right when no earlier constant has an escaped newline, and wrong after one (yylineno is only incremented by the rule for newline).")
c("C145","partial",["code_names_distinct_partial","code_names_are_identifiers","long_operator_refuted"],"Distinct and identifiers for all operators of fewer than 16 characters; from 16 on every operator overflows special_buf[20].")
c("C146","partial",["anonymous_names_partial","anonymous_clash_refuted","many_underscores_refuted"],"Distinct among themselves and from words written in the text; refuted for backquoted names (`_1` is the symbol of the first _), and the buffer of 10 characters overflows with enough of them.")
c("C147","proved",["path_split","open_first"],"The wild pointer in the last round of the loop is never used; names that would not fit in the buffer are skipped (so the check in aps_open leaves exactly room for the slash and the NUL).")
c("C148","partial",["program_of_name","files_read_once","find_stops","directory_reread","directory_confused_refuted"],"Proved for names without directories; find_stops gives the exact reasons to stop. Refuted for names with '/': the cache is keyed by the name without directories, so such a program is read again for every request, and afterwards the plain name gives it instead of its own file.")
c("C149","partial",["binding_ends","bound_once","with_scopes_partial","directory_cycle_refuted"],"Ending and binding once hold for all file systems. Scopes and the set of programs read: when with units name no directories; otherwise a cyclic with runs into the limit of 100 programs. with_cycle_case is a concrete cycle. Declarations at top level other than those in KEYdeclaration are left out; duplicates are C68.")
c("C150","partial",["import_matches_partial","program_ids_distinct","program_ids_clash","import_directory_refuted","object_clash_refuted"],"Right for names without directories, and distinct for names of letters, digits and underscores. Refuted in general: with \"x/foo\" imports xfoo_implicit while foo_implicit is defined, and a-b and a_b define the same object.")
c("C151","partial",["implicit_names_distinct","implicit_names_identifiers","implicit_names_begin","implicit_names_clash_refuted"],"Distinct in one program and between programs whose names differ in letters or digits; refuted for a-b and a_b.")
c("C152","proved",["C152_phyla"],"From the state dnc_close leaves when the cycle test is clear. Agreement (same_needs) is upwards with kinds, downwards as to which dependencies there are: the kinds of a summary graph are overwritten by the schedule, so synchronised of C43 does not hold of them.")
c("C153","proved",["C153_compute_oag"],"no_order says more than that the search failed: the conditions under which C47 gives an order do not hold of the graph. Debugging output (with its overrun of the instances array at aps-oag.c:334) is left out.")
c("C154","proved",["constant_or_reported","constants_reported"],"The token of the broken constant is still returned to the parser (LEX_ERROR is assigned to yytoken and then overwritten), as the code does.")
c("C155","proved",["C155_evaluation"],"Joins C43, C152, C153 with C114 to C117: the premises of C116 about phases, edges and instances are now derived from the run of compute_oag. What remains assumed is in the statement (laid_out, tests_needed, cases_apart, begins, phases_used); C118 shows what happens without the last two. C155_example is a grammar that meets all of it, with its evaluation.")
c("C156","proved",["C156_let_through","C156_not_dnc","C156_acyclic"],"From the dependency graphs on, without SCC scheduling. After cycles have been broken (C48, C53) nothing is claimed about the orders, only that the final graphs are acyclic if the analysis does not give up.")
c("C157","proved",["C157_declarations","C157_analysis"],"What is known of an attribute (is it a test, a function's result, ...) is given. The buffer for names is not modelled.")
c("C158","partial",["C156_together_refuted","C156_once_refuted","C157_unused_refuted"],"False of the code, in all three parts: the kinds of all cycles are joined before the decision; loop_required is only read with SCC scheduling (static-scc-impl.cc:898, dump-scala.cc:1607-1610), so with the default scheduling two circular attributes are each computed once; without any cycle the declarations are not checked. Each theorem is a concrete grammar.")
c("C159","proved",["C159_init","C159_unknown"],"Fiber sets, attribute sets and resolved names are given. Calls, variables of the module and function bodies are not covered.")
c("C160","proved",["C160_text"],"Composition of C119-C121, C123, C159 with C43-C44. Data influences are for rules with plain bodies (no composite initial values, no conditions in choices); see C121. Examples: a grammar accepted with a four-step flow through a tree, one rejected with a cycle.")
c("C161","proved",["C161_orders"],"Composition of C159, C120-C121 with C153/C156. Every attribute must be flagged synthesized or inherited. Variables of patterns have no condition (init_decl_cond does not visit them), so they are visited always. Grammars of rules without calls or for, at most 32 tests a rule. Example: the orders of a left-to-right grammar with a test.")
c("C162","proved",["C162_plan"],"Same grammars as C161. That every attribute is inherited or synthesized is a conclusion, not a hypothesis. Proved when the analysis needs no fibre-cycle breaking (its messages are empty). Example: a phylum with two visits, and the schedules and orders computed for its grammar.")

