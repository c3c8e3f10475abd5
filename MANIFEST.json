{
 "claims": [
  {
   "property": "C01",
   "status": "proved",
   "theorems": [
    "C01_refines_bounded_queue",
    "C01_bounded_and_unique"
   ],
   "note": ""
  },
  {
   "property": "C02",
   "status": "proved",
   "theorems": [
    "C02_n_cheapest_accepted",
    "C02_n_cheapest_offered",
    "C02_large_n_refuted",
    "C02_truncate_refuted"
   ],
   "note": "Proved for all call sequences of push and pop; relative to what was offered only for n up to the capacity (refuted above it). False after truncate (refuted)."
  },
  {
   "property": "C03",
   "status": "proved",
   "theorems": [
    "C03_search_safe",
    "C03_search_terminates",
    "C03_zero_limit_refuted"
   ],
   "note": "The limit on visited states is max(1, limit); for limit 0 refuted."
  },
  {
   "property": "C04",
   "status": "proved",
   "theorems": [
    "C04_exhaustive_optimal",
    "C04_large_queue_optimal"
   ],
   "note": ""
  },
  {
   "property": "C05",
   "status": "partial",
   "theorems": [
    "C05_agree",
    "C05_cut_off_refuted"
   ],
   "note": "Agreement when the search space is exhausted is proved; under a cut-off the statement is false of the code (refuted)."
  },
  {
   "property": "C06",
   "status": "proved",
   "theorems": [
    "C06_safety",
    "C06_cost_and_meaning",
    "C06_best_of_enqueued",
    "C06_exhaustive_optimal"
   ],
   "note": "For every schedule of a transition system of the main thread, the queue thread and any number of workers: no panic, the best circuit is derived by rewrites, costs no more than the input, no hash is handed out twice, nothing better that was enqueued is lost at the end; and the result is optimal if the search was exhausted without the queue overflowing."
  },
  {
   "property": "C07",
   "status": "partial",
   "theorems": [
    "C07_never_returns_refuted",
    "C07_deadlock_refuted",
    "C07_with_timeout_partial",
    "C07_can_return_partial",
    "C07_blocks_only_when_exhausted"
   ],
   "note": "The property is false of the code: without a timeout or circuit limit the main thread never leaves its loop, and with a finite search space it deadlocks. With a timeout it returns in every execution."
  },
  {
   "property": "C08",
   "status": "partial",
   "theorems": [
    "C08_never_set_refuted",
    "C08_full_and_unset_refuted",
    "C08_no_discard_partial"
   ],
   "note": "The property is false of the code: the shared bound starts unset and is only updated when already set, so it never is, and nothing is pruned."
  },
  {
   "property": "C09",
   "status": "partial",
   "theorems": [
    "C09_total_order",
    "C09_addition",
    "C09_sum",
    "C09_delta_exact",
    "C09_delta_wraps_refuted"
   ],
   "note": "Everything proved; the delta law needs totals below 2^63 and is false of the code without that bound (refuted)."
  },
  {
   "property": "C10",
   "status": "partial",
   "theorems": [
    "C10_div_covers_least_partial",
    "C10_zero_refuted"
   ],
   "note": "Covering proved for all costs; leastness for components >= 1, false of the code for components 0 (refuted)."
  },
  {
   "property": "C11",
   "status": "proved",
   "theorems": [
    "C11_greedy",
    "C11_delta_is_op_count_refuted"
   ],
   "note": "As stated; in addition the reported delta is shown not to be the change of num_operations in general."
  },
  {
   "property": "C12",
   "status": "proved",
   "theorems": [
    "C12_exhaustive_greedy",
    "C12_exhaustive_threshold",
    "C12_default_threshold"
   ],
   "note": "For total costs below 2^63."
  },
  {
   "property": "C13",
   "status": "proved",
   "theorems": [
    "C13_representative_minimal"
   ],
   "note": ""
  },
  {
   "property": "C14",
   "status": "partial",
   "theorems": [
    "C14_partition",
    "C14_cost_groups",
    "C14_sizes",
    "C14_cost_bound_refuted",
    "C14_full_refuted",
    "C14_zero_refuted",
    "C14_huge_bound_refuted"
   ],
   "note": "Partition, order and the exact sizes and costs of the chunks are proved. As stated the property is false of the code: cost bound, fullness of the first chunk, bound 0 and bounds beyond isize (all refuted)."
  },
  {
   "property": "C15",
   "status": "partial",
   "theorems": [
    "C15_roundtrip",
    "C15_split_roundtrip",
    "C15_replacement",
    "C15_shared_wire_refuted"
   ],
   "note": "Proved for all circuits in which no chunk reads a wire from outside twice; false of the code without that condition (refuted)."
  },
  {
   "property": "C16",
   "status": "proved",
   "theorems": [
    "C16_table",
    "C16_pairs",
    "C16_commutes_with"
   ],
   "note": ""
  },
  {
   "property": "C17",
   "status": "partial",
   "theorems": [
    "C17_semantics_partial",
    "C17_order_exists_partial",
    "C17_never_later_partial"
   ],
   "note": "Proved for all circuits that allocate no qubits and whose unknown operations are purely classical. False of the code beyond that: see C18_opaque_refuted and C18_classical_cycle_refuted."
  },
  {
   "property": "C18",
   "status": "partial",
   "theorems": [
    "C18_total_partial",
    "C18_valuation_exists",
    "C18_alloc_refuted",
    "C18_fresh_qubit_refuted",
    "C18_opaque_refuted",
    "C18_classical_cycle_refuted"
   ],
   "note": "False of the code: allocations and gates on allocated qubits panic, unknown quantum operations are crossed, classical dependencies can become cyclic (refuted). Totality proved for the remaining circuits."
  },
  {
   "property": "C19",
   "status": "partial",
   "theorems": [
    "C19_walk",
    "C19_nodes",
    "C19_threading",
    "C19_distinct_partial",
    "C19_distinct_refuted",
    "C19_ports_partial",
    "C19_outputs_partial",
    "C19_ports_refuted"
   ],
   "note": "Order, completeness and threading are proved for all regions. Distinctness of live units is false of the code: after a free, an allocation gets a unit that is in use (C19_distinct_refuted); it holds while nothing is allocated after a free (C19_distinct_partial). Asking a command for its units panics when a linear port follows a non-linear one (C19_ports_refuted)."
  },
  {
   "property": "C20",
   "status": "proved",
   "theorems": [
    "C20_invariant",
    "C20_topo",
    "C20_total",
    "C20_faithful"
   ],
   "note": "Hash functions are parameters; petgraph Topo is modelled and shown to be one of the allowed walks."
  },
  {
   "property": "C21",
   "status": "proved",
   "theorems": [
    "C21_array",
    "C21_region",
    "C21_elision",
    "C21_idempotent_refuted"
   ],
   "note": "For every well-formed region and every meaning of the other operations the pass terminates without panicking and keeps behaviour, including panics. Extra: the pass is not idempotent (C21_idempotent_refuted)."
  },
  {
   "property": "C22",
   "status": "proved",
   "theorems": [
    "C22_controlled_gate",
    "C22_controlled_body",
    "C22_phase_deletion"
   ],
   "note": ""
  },
  {
   "property": "C23",
   "status": "proved",
   "theorems": [
    "C23_dagger_inverse",
    "C23_dagger_body"
   ],
   "note": ""
  },
  {
   "property": "C24",
   "status": "partial",
   "theorems": [
    "C24_controlled_cz_refuted",
    "C24_controlled_z_refuted",
    "C24_controlled_cz_actual"
   ],
   "note": "The property is false of the code: refuted for every number of controls in range."
  },
  {
   "property": "C25",
   "status": "partial",
   "theorems": [
    "C25_toffoli_order_refuted",
    "C25_wire_order"
   ],
   "note": "False of the code for Toffoli with one or more controls (refuted for all of them); proved for every other gate."
  },
  {
   "property": "C26",
   "status": "proved",
   "theorems": [
    "C26_synthesis_total",
    "C26_phase_total",
    "C26_non_unitary_refused"
   ],
   "note": ""
  },
  {
   "property": "C27",
   "status": "proved",
   "theorems": [
    "C27",
    "C27_powers",
    "C27_flags"
   ],
   "note": "All chains; the semantic part is for chains without powers, over any operations with the laws of dagger and control. Powers are only kept modulo 2 and used by nothing else (C27_powers)."
  },
  {
   "property": "C28",
   "status": "partial",
   "theorems": [
    "C28_pack",
    "C28_partial",
    "C28_indirect_partial",
    "C28_refuted"
   ],
   "note": "Packing and unpacking proved in full. The signature lines up with the declared type and the body exactly for chains whose control sizes are a palindrome; false otherwise (C28_refuted)."
  },
  {
   "property": "C29",
   "status": "partial",
   "theorems": [
    "C29_bijection",
    "C29_shift",
    "C29_edges",
    "C29_inside",
    "C29_dagger_partial",
    "C29_dagger_refuted",
    "C29_nested_partial",
    "C29_nested_refuted"
   ],
   "note": "Bijection, shift, sides of edges and agreement of inside and outside proved for all rows. The position-wise exchange is proved for rows with equal quantum runs, and the wiring of nested regions without dagger, without controls or without classical types; false otherwise."
  },
  {
   "property": "C30",
   "status": "proved",
   "theorems": [
    "C30_gate_lowering",
    "C30_rotations_exact"
   ],
   "note": ""
  },
  {
   "property": "C31",
   "status": "proved",
   "theorems": [
    "C31_lowered_measurement",
    "C31_lowered_execution"
   ],
   "note": ""
  },
  {
   "property": "C32",
   "status": "proved",
   "theorems": [
    "C32_every_op_lowered",
    "C32_pass_complete",
    "C32_symbolic_angle_refuted"
   ],
   "note": "Proved for TketOps. The other operation of the tket.quantum extension, the symbolic angle, is left in the program (refuted)."
  },
  {
   "property": "C33",
   "status": "partial",
   "theorems": [
    "C33_partial",
    "C33_refuted"
   ],
   "note": "Proved for expressions whose constants are finite, printed readably and exactly equal to the fraction of pi they are taken for, and without a variable called pi. False of the code otherwise."
  },
  {
   "property": "C34",
   "status": "partial",
   "theorems": [
    "C34_partial",
    "C34_refuted"
   ],
   "note": "Proved for all Python expressions of the grammar without a power directly under a minus sign or in an exponent; these are read with the wrong grouping (C34_refuted)."
  },
  {
   "property": "C35",
   "status": "partial",
   "theorems": [
    "C35_checked",
    "C35_partial",
    "C35_wrap_refuted",
    "C35_index_refuted",
    "C35_kind_refuted"
   ],
   "note": "With overflow checks new registers are new of their kind or generation panics; in all builds they are new while the indices fit in 16 bits. False of the code otherwise: more than 65536 registers, an index that is 65535 modulo 65536, or a bit register called q."
  },
  {
   "property": "C36",
   "status": "partial",
   "theorems": [
    "C36_partial",
    "C36_lazy",
    "C36_alloc_refuted",
    "C36_const_refuted",
    "C36_shared_refuted",
    "C36_alias_refuted",
    "C36_input_refuted"
   ],
   "note": "False of the code: a reused qubit is not reset, a false constant on a reused bit is not written, bits that are needed later are overwritten, unused input bits share registers (refuted). Proved, with success of the encoder, for circuits without these patterns."
  },
  {
   "property": "C37",
   "status": "partial",
   "theorems": [
    "C37_partial",
    "C37_mixed_refuted",
    "C37_opaque_refuted"
   ],
   "note": "False of the code: a wire of an old and a new qubit gets one register twice, and unsupported operations that are emitted late take a register that is in use. Proved at every point for circuits without these patterns."
  },
  {
   "property": "C38",
   "status": "partial",
   "theorems": [
    "C38_partial",
    "C38_refuted",
    "C38_round_trip_partial"
   ],
   "note": "False of the code: the permutation is always the identity, so it is right exactly when the outputs are in the order of the registers (proved as an equivalence)."
  },
  {
   "property": "C39",
   "status": "partial",
   "theorems": [
    "C39_partial",
    "C39_total",
    "C39_refuted"
   ],
   "note": "Proved for permutations of all registers or of a prefix of them. False of the code for other partial permutations."
  },
  {
   "property": "C40",
   "status": "proved",
   "theorems": [
    "C40"
   ],
   "note": "All operations. MeasureFree is written as a Measure and read back as one, which the code documents."
  },
  {
   "property": "C41",
   "status": "partial",
   "theorems": [
    "C41_straight_partial",
    "C41_direct_partial",
    "C41_written",
    "C41_refuted",
    "C41_nested_refuted",
    "C41_positions_refuted"
   ],
   "note": "Expressions with one operator over bits are read correctly and the encoder writes the operator, arguments and output position it should; the round trip fails for every boolean operation (C41_refuted), and nested expressions are not read."
  },
  {
   "property": "C42",
   "status": "partial",
   "theorems": [
    "C42_new",
    "C42_extend_partial",
    "C42_history",
    "C42_total",
    "C42_nodes",
    "C42_extend_refuted"
   ],
   "note": "All parts hold for nodes on the path of the interval; extension by a node off the path whose position lies within the interval returns Ok(None) instead of the documented error (C42_extend_refuted)."
  },
  {
   "property": "C43",
   "status": "proved",
   "theorems": [
    "C43",
    "C43_flows"
   ],
   "note": "For every valid graph, topological order of its nodes and entry ports the tracker succeeds; two linear ports get the same resource iff the linear value goes from one to the other; positions increase along value edges. The toposort of the graph library is external (any topological order)."
  },
  {
   "property": "C44",
   "status": "partial",
   "theorems": [
    "C44_wires",
    "C44_partial",
    "C44_back_partial",
    "C44_row_partial",
    "C44_missing_partial",
    "C44_refuted"
   ],
   "note": "Type analysis exact for all types. Round trips in both directions for all full values of types without bare options of elements, without arrays of options of non-qubit elements, and without arrays of elements that unpack to no wire; false for those (C44_refuted). Values with missing parts panic at run time."
  },
  {
   "property": "C45",
   "status": "proved",
   "theorems": [
    "C45",
    "C45_get"
   ],
   "note": "All straight-line programs over the boolean, measurement and arbitrary other operations, with the copies and discards of the linearizer; control flow of the source is not modelled."
  },
  {
   "property": "C46",
   "status": "proved",
   "theorems": [
    "C46_rules_within_class",
    "C46_rules_sound"
   ],
   "note": ""
  },
  {
   "property": "C47",
   "status": "partial",
   "theorems": [
    "C47_gamma_partial",
    "C47_zero_cost_refuted"
   ],
   "note": "False of the code for patterns of cost 0 (refuted); proved for costs 1 to 10000; f64 arithmetic taken to be exact."
  },
  {
   "property": "C48",
   "status": "partial",
   "theorems": [
    "C48_dead_refuted",
    "C48_outside_refuted",
    "C48_xor_refuted",
    "C20_faithful"
   ],
   "note": "False of the code, whatever the hash functions: operations that do not feed the output, the identity of nodes outside of the region (called functions, outer constants) and pairs of equal order predecessors do not count. C20_faithful is what holds."
  },
  {
   "property": "C49",
   "status": "partial",
   "theorems": [
    "C49_sound",
    "C49_partial",
    "C49_refuted"
   ],
   "note": "Always sound; exact where all edges are value edges; false with order edges, along which positions need not increase."
  },
  {
   "property": "C50",
   "status": "partial",
   "theorems": [
    "C50_partial",
    "C50_refuted"
   ],
   "note": "Parsing always terminates. Loading panics for known functions with the wrong number of arguments and for infinite constants where a rotation is needed (C50_refuted), never otherwise."
  },
  {
   "property": "C51",
   "status": "proved",
   "theorems": [
    "C51"
   ],
   "note": "All strings of characters; pest itself is modelled by the PEG semantics of the rules."
  },
  {
   "property": "C52",
   "status": "proved",
   "theorems": [
    "C52"
   ],
   "note": "For expressions in the grammar that are read as Python reads them."
  },
  {
   "property": "C53",
   "status": "partial",
   "theorems": [
    "C53_partial",
    "C53_refuted"
   ],
   "note": "Conditionals always; tail loops exactly when all carried values are qubits (or there is no control)."
  },
  {
   "property": "C54",
   "status": "partial",
   "theorems": [
    "C54_partial",
    "C54_refuted"
   ],
   "note": "For distinct callees and no region after a call; false otherwise."
  },
  {
   "property": "C55",
   "status": "partial",
   "theorems": [
    "C55_partial",
    "C55_transparent_partial",
    "C55_refuted"
   ],
   "note": "For rows of types the container unpacker supports (see C44); other rows fail to compile or skip optional qubits."
  },
  {
   "property": "C56",
   "status": "partial",
   "theorems": [
    "C56_meaning_partial",
    "C56_tables_partial",
    "C56_linear_partial",
    "C56_typed_partial",
    "C56_total_partial",
    "C56_tuple_refuted",
    "C56_lost_refuted",
    "C56_typed_refuted",
    "C56_reads_refuted",
    "C56_barrier_refuted"
   ],
   "note": "Meaning and linear use of qubits proved for all signatures without tuples; well-typedness and totality proved without BoolOp expressions; all four are false in general (refuted with witnesses)."
  },
  {
   "property": "C57",
   "status": "partial",
   "theorems": [
    "C57_rewrite_partial",
    "C57_found",
    "C57_container_refuted",
    "C57_constant_refuted",
    "C57_shared_refuted",
    "C57_call_refuted"
   ],
   "note": "Proved for patterns without containers whose nodes are all commands; false for containers (only signatures are compared) and constants outside the region; occurrences with one value at two inputs are not found; patterns with calls panic. Convexity and boundary checks, the single-pattern matcher and SimpleReplacement are external code, modelled by what they do."
  },
  {
   "property": "C58",
   "status": "partial",
   "theorems": [
    "C58_rewritten_partial"
   ],
   "note": "Under the conditions of C57 for each rule."
  },
  {
   "property": "C59",
   "status": "partial",
   "theorems": [
    "C59_rewrite",
    "C59_loop_partial",
    "C59_panics",
    "C59_panic_refuted"
   ],
   "note": "Every rewrite that is built is right, and the loop ends; it panics exactly when an element of the unpacked tuple is unused or the tuple has two or more other uses (refuted). SiblingSubgraph::try_from_nodes and SimpleReplacement are external code, modelled by what they do."
  },
  {
   "property": "C60",
   "status": "proved",
   "theorems": [
    "C60_removed",
    "C60_error",
    "C60_meaning"
   ],
   "note": "The signatures stored at nodes (update_signature) are not modelled; order edges and containers are not in the circuits. C60_meaning is for circuits of gates on qubits and classical values."
  },
  {
   "property": "C61",
   "status": "partial",
   "theorems": [
    "C61_everywhere",
    "C61_rewrite_partial",
    "C61_rewritten_partial"
   ],
   "note": "Missing: classes with container operations (the matcher compares them differently, see C57). hugr subgraph and replacement are external code, modelled by what they do; the match is any that the pattern matcher can give."
  },
  {
   "property": "C62",
   "status": "partial",
   "theorems": [
    "C62_order",
    "C62_convex",
    "C62_connected",
    "C62_joined",
    "C62_fails",
    "C62_total_partial",
    "C62_total_refuted",
    "C62_order_edges_refuted"
   ],
   "note": "Order, convexity and connectedness for all regions in which accepted nodes have no order edges; with an order edge into a constant they fail (refuted). Not every region can be encoded (refuted). Registers are not modelled here: whether a component has some is a parameter."
  },
  {
   "property": "C63",
   "status": "partial",
   "theorems": [
    "C63_lookup",
    "C63_ends",
    "C63_once_refuted"
   ],
   "note": "Uniqueness, lookup and termination hold; that each region is encoded once is false (exponentially often for nested containers without registers)."
  },
  {
   "property": "C64",
   "status": "partial",
   "theorems": [
    "C64_inline_partial",
    "C64_total",
    "C64_twice_refuted"
   ],
   "note": "External payloads are replaced; other data of barriers is erased, so it is not idempotent (refuted for every circuit)."
  },
  {
   "property": "C65",
   "status": "partial",
   "theorems": [
    "C65_edges",
    "C65_panics",
    "C65_reordered",
    "C65_targets_partial",
    "C65_targets_refuted"
   ],
   "note": "Connections are right up to the numbering of target nodes, which is not translated (refuted). Edge ids are abstract: collisions of the 64-bit hash are not modelled."
  },
  {
   "property": "C66",
   "status": "proved",
   "theorems": [
    "C66_well_formed",
    "C66_refused"
   ],
   "note": "Regions of unitary gates, global phases and classical operations; nested regions, calls and arrays are not in this model."
  },
  {
   "property": "C67",
   "status": "proved",
   "theorems": [
    "C67_one_run",
    "C67_any_order"
   ],
   "note": ""
  },
  {
   "property": "C68",
   "status": "proved",
   "theorems": [
    "C68_modified_run",
    "C68_every_run"
   ],
   "note": ""
  },
  {
   "property": "C69",
   "status": "proved",
   "theorems": [
    "C69_meaning",
    "C69_order_free"
   ],
   "note": "The gates whose controlled form is wrong (C24, C25) are excluded by hypothesis. Uses the axioms of Coq's Reals and functional extensionality."
  },
  {
   "property": "C70",
   "status": "partial",
   "theorems": [
    "C70_other_operations_refuted"
   ],
   "note": "False of the code: unknown operations on qubits are copied unmodified."
  },
  {
   "property": "C71",
   "status": "proved",
   "theorems": [
    "C71_refines"
   ],
   "note": "Straight-line programs; arrays, containers, control flow and mailboxes are not in this model. The runtime is any machine that does not answer 2^64-1 for a qubit that it did allocate (no_max)."
  },
  {
   "property": "C72",
   "status": "proved",
   "theorems": [
    "C72_handles",
    "C72_nothing_left",
    "C72_watched"
   ],
   "note": "Unless the runtime hands out a handle that is in use (l_odd)."
  },
  {
   "property": "C73",
   "status": "proved",
   "theorems": [
    "C73_strings",
    "C73_adds_one",
    "C73_total"
   ],
   "note": ""
  },
  {
   "property": "C74",
   "status": "partial",
   "theorems": [
    "C74_tags",
    "C74_bad_tags",
    "C74_panic_refuted"
   ],
   "note": "The part on bad tags is false of the code: an empty or too long tag of a result panics."
  },
  {
   "property": "C75",
   "status": "partial",
   "theorems": [
    "C75_codes",
    "C75_ranges_refuted"
   ],
   "note": "False without bounds on the signals."
  },
  {
   "property": "C76",
   "status": "proved",
   "theorems": [
    "C76_round_trip",
    "C76_injective",
    "C76_refused"
   ],
   "note": ""
  },
  {
   "property": "C77",
   "status": "proved",
   "theorems": [
    "C77_calls",
    "C77_requests",
    "C77_functions"
   ],
   "note": ""
  },
  {
   "property": "C78",
   "status": "partial",
   "theorems": [
    "C78_rotations_finite",
    "C78_new_context_refuted",
    "C78_addition_refuted"
   ],
   "note": "False of the code as stated."
  },
  {
   "property": "C79",
   "status": "proved",
   "theorems": [
    "C79_contents",
    "C79_total"
   ],
   "note": ""
  },
  {
   "property": "C80",
   "status": "partial",
   "theorems": [
    "C80_order_partial",
    "C80_stable",
    "C80_found",
    "C80_order_refuted"
   ],
   "note": "Inputs from elsewhere come before those of excluded nodes, contrary to the documentation."
  },
  {
   "property": "C81",
   "status": "partial",
   "theorems": [
    "C81_convex_partial",
    "C81_complete_refuted",
    "C81_default_refuted"
   ],
   "note": "Soundness for circuits without order edges; completeness of the error and the comment in the code are false."
  },
  {
   "property": "C82",
   "status": "partial",
   "theorems": [
    "C82_value",
    "C82_output_partial",
    "C82_output_refuted"
   ],
   "note": "The output is right only if no port before it is linked."
  },
  {
   "property": "C83",
   "status": "partial",
   "theorems": [
    "C83_types_partial",
    "C83_unique",
    "C83_types_refuted"
   ],
   "note": "For programs whose constant arrays of booleans have elements; false otherwise."
  },
  {
   "property": "C84",
   "status": "proved",
   "theorems": [
    "C84_meaning",
    "C84_types_partial",
    "C84_constants",
    "C84_convert"
   ],
   "note": "C84_types_partial (the types of the values after the pass) needs the condition of C83."
  },
  {
   "property": "C85",
   "status": "partial",
   "theorems": [
    "C85_total_partial",
    "C85_total_refuted"
   ],
   "note": "The exact condition is proved; the pass is not total."
  },
  {
   "property": "C86",
   "status": "partial",
   "theorems": [
    "C86_resolved_partial",
    "C86_cleaned",
    "C86_only",
    "C86_used_twice_refuted",
    "C86_panics_refuted",
    "C86_argument_refuted"
   ],
   "note": "For modifiers that are used once and modify a loaded function; false otherwise."
  },
  {
   "property": "C87",
   "status": "partial",
   "theorems": [
    "C87_ends",
    "C87_time_refuted"
   ],
   "note": "It ends in any graph; the number of steps is exponential."
  },
  {
   "property": "C88",
   "status": "partial",
   "theorems": [
    "C88_meaning_partial",
    "C88_typed",
    "C88_names",
    "C88_renamed_refuted"
   ],
   "note": "For commands whose qubits come out under the names they went in with; false otherwise."
  },
  {
   "property": "C89",
   "status": "partial",
   "theorems": [
    "C89_classes_partial",
    "C89_last",
    "C89_lost_refuted"
   ],
   "note": "For classes with different ids; in general the last one is kept."
  },
  {
   "property": "C90",
   "status": "partial",
   "theorems": [
    "C90_arrays_partial",
    "C90_others_partial",
    "C90_swap_refuted",
    "C90_classical_refuted",
    "C90_panics_refuted"
   ],
   "note": "For making, unpacking and converting arrays of what holds qubits, and other operations with reversible rows; false otherwise."
  },
  {
   "property": "C91",
   "status": "partial",
   "theorems": [
    "C91_placed_partial",
    "C91_uncontrolled_refuted"
   ],
   "note": "Ports are kept; unknown operations are not controlled."
  },
  {
   "property": "C92",
   "status": "proved",
   "theorems": [
    "C92_cached",
    "C92_answers",
    "C92_one",
    "C92_total",
    "C92_params",
    "C92_regroup"
   ],
   "note": "The cache is taken to be never poisoned."
  },
  {
   "property": "C93",
   "status": "partial",
   "theorems": [
    "C93_bool_partial",
    "C93_parts_partial",
    "C93_counts_partial",
    "C93_ends",
    "C93_lost_refuted",
    "C93_order_refuted"
   ],
   "note": "For single bools and for constants without bools as sums; in order if tuples stand last in tuples. False otherwise."
  },
  {
   "property": "C94",
   "status": "partial",
   "theorems": [
    "C94_consts",
    "C94_ops_partial",
    "C94_ops_refuted"
   ],
   "note": "For constants; for operations, emitters for all extensions come last."
  },
  {
   "property": "C95",
   "status": "partial",
   "theorems": [
    "C95_nodes",
    "C95_links_partial",
    "C95_inputs_partial"
   ],
   "note": "Links from outputs with registers that leave their group are excluded (lost, see C96), and inputs of a group with registers or parameters are in C96. The wires found by the decoder and the nodes it makes are given."
  },
  {
   "property": "C96",
   "status": "partial",
   "theorems": [
    "C96_found_partial",
    "C96_outputs",
    "C96_shared_refuted",
    "C96_params_refuted",
    "C96_nonlocal_refuted"
   ],
   "note": "Inputs with registers, and parameters from encoded nodes; outputs of unsupported types. False for shared values, parameters between groups and nested uses of encoded values."
  },
  {
   "property": "C97",
   "status": "partial",
   "theorems": [
    "C97_arguments",
    "C97_operations",
    "C97_injective",
    "C97_shape",
    "C97_array",
    "C97_unchecked_refuted"
   ],
   "note": "False of arguments that do not fit the declared parameters."
  },
  {
   "property": "C98",
   "status": "partial",
   "theorems": [
    "C98_printed_partial",
    "C98_state",
    "C98_length",
    "C98_pointer_inverse",
    "C98_narrow_refuted",
    "C98_narrow_values_refuted",
    "C98_stack_refuted"
   ],
   "note": "Integers of 64 bits, floats, booleans, qubits; false for narrower integers, and the stack is not bounded in loops. Sizes of elements and the reading of the runtime are those documented, not checked here."
  },
  {
   "property": "C99",
   "status": "partial",
   "theorems": [
    "C99_restored",
    "C99_called_partial",
    "C99_names",
    "C99_refused",
    "C99_inputs_refuted",
    "C99_failure_refuted"
   ],
   "note": "False for mains of modules with inputs and for passes that fail. Passes are given; that they keep the entry function is a hypothesis."
  },
  {
   "property": "C100",
   "status": "partial",
   "theorems": [
    "C100_total",
    "C100_reads",
    "C100_quantum",
    "C100_frees",
    "C100_allocs_partial",
    "C100_late_refuted"
   ],
   "note": "Allocations wait for quantum operations only, not for classical ones (refuted). hugr's force_order is modelled after its documentation."
  },
  {
   "property": "C101",
   "status": "partial",
   "theorems": [
    "C101_found_partial",
    "C101_not_found_partial",
    "C101_available",
    "C101_listed_refuted",
    "C101_parametric_refuted",
    "C101_empty_refuted"
   ],
   "note": "Proved for names that are not empty; false for generic functions, the empty name and the list of names (refuted). Envelopes and validation are not modelled."
  },
  {
   "property": "C102",
   "status": "partial",
   "theorems": [
    "C102_types",
    "C102_operations",
    "C102_arguments",
    "C102_injective",
    "C102_builder",
    "C102_builder_refused",
    "C102_contexts",
    "C102_unchecked_refuted"
   ],
   "note": "Reading types does not check arguments and bounds of modules and contexts (refuted). Arguments that join lists are not modelled."
  },
  {
   "property": "C103",
   "status": "partial",
   "theorems": [
    "C103_greedy",
    "C103_exhaustive_partial",
    "C103_history",
    "C103_off",
    "C103_enable_again",
    "C103_failed_refuted",
    "C103_wrapped_refuted",
    "C103_metadata_refuted"
   ],
   "note": "False for rewrites that fail, for counts from 65536 and for foreign metadata (refuted). Rewrites are given functions that keep the metadata of the parent."
  },
  {
   "property": "C104",
   "status": "partial",
   "theorems": [
    "C104_memory",
    "C104_strings_partial",
    "C104_result",
    "C104_parallel",
    "C104_order",
    "C104_leak_refuted"
   ],
   "note": "Strings are freed if what TKET1 writes can be read (refuted otherwise). Parallel runs are any order of circuits, each taken as a whole."
  },
  {
   "property": "C105",
   "status": "partial",
   "theorems": [
    "C105_outputs_partial",
    "C105_same",
    "C105_order_refuted",
    "C105_shared_refuted",
    "C105_ports_refuted"
   ],
   "note": "Proved for at most one order edge to the output node. False: port counts of the parent, several order edges, tags that are used elsewhere (refuted)."
  },
  {
   "property": "C106",
   "status": "partial",
   "theorems": [
    "C106_operations",
    "C106_only",
    "C106_injective",
    "C106_kept_partial",
    "C106_drop_refuted",
    "C106_documented_partial",
    "C106_float_refuted"
   ],
   "note": "Names, arguments and reading proved for all operations. Qubits are kept but for drops, which are not limited to affine types (refuted). Signatures of random operations are as documented but for the width of floats (refuted)."
  },
  {
   "property": "C107",
   "status": "proved",
   "theorems": [
    "C107_runs",
    "C107_error",
    "C107_meaning",
    "C107_off",
    "C107_setters",
    "C107_noop"
   ],
   "note": "The passes themselves are parameters of the theorems."
  }
 ]
}