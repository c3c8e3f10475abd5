{"id": "C01", "title": "Priority queue of the optimiser is bounded, duplicate free and serves the cheapest entry first", "statement": "After any history of pushes and pops on the optimiser's state queue created with capacity n: at most n states are queued; no state hash is accepted twice in the lifetime of the queue; pop returns an entry of least cost among the queued ones; a push into a full queue is accepted only if strictly cheaper than the current worst, and then evicts exactly one worst entry; no internal lookup fails.", "quantifier": "every capacity, every sequence of push/pop operations, every cost and hash, every resolution of ties", "why_tests_cant": "histories of operations are unbounded and eviction interacts with the seen-set and the best-list; tests try a few sequences", "anchors": ["tket/src/optimiser/pqueue.rs: StatePQueue::{push_unchecked,pop,pop_max,check_accepted}"]}
{"id": "C02", "title": "The n-best list is exactly the n cheapest accepted states", "statement": "With track_n_best = n (n at most the queue size), into_all_time_best after any history returns, sorted by cost, the n cheapest states ever accepted (all of them if fewer than n) and never panics; when n exceeds the queue size the same holds for the accepted states.", "quantifier": "every n, capacity, history of pushes/pops", "why_tests_cant": "needs a statement over whole histories and over evicted entries", "anchors": ["tket/src/optimiser/pqueue.rs: StatePQueue::{push_all_time_best,pop_max_atb,into_all_time_best,truncate}"]}
{"id": "C03", "title": "Backtracking search never returns a worse state, only reachable ones, and respects its budget", "statement": "Whatever the next_states function, cost function, hash function, timeouts and queue size: if the backtracking optimiser returns a result then best_state has cost at most that of the start state and of every visited state, is reachable from the start state by next_states steps, each hash is visited at most once, and at most max(1, max_visited_count) states are visited; it returns nothing exactly when the queue capacity is zero.", "quantifier": "all state graphs, costs, hashes, queue sizes, timeout schedules", "why_tests_cant": "the search space and the timing of the stop are unbounded", "anchors": ["tket/src/optimiser/backtracking.rs: BacktrackingOptimiser::optimise_with_log_and_options", "tket/src/optimiser.rs: State, OptimiserResult"]}
{"id": "C04", "title": "Exhaustive search is optimal", "statement": "If the backtracking search stops because its queue is empty, no state was ever evicted or refused for cost, and hashes separate the reachable states, then best_state is a cheapest state among all states reachable from the start.", "quantifier": "all finite state graphs, costs and hashes", "why_tests_cant": "global optimality over all graphs cannot be sampled", "anchors": ["tket/src/optimiser/backtracking.rs: optimise_with_log_and_options", "tket/src/optimiser/pqueue.rs"]}
{"id": "C05", "title": "Best state and n-best list agree", "statement": "The cost of best_state equals the cost of the first entry of n_best_states (when tracking is on), also when the search is cut off by a limit.", "quantifier": "all searches and cut-off points", "why_tests_cant": "depends on the cut-off point in the schedule", "anchors": ["tket/src/optimiser/backtracking.rs", "tket/src/optimiser/pqueue.rs: into_all_time_best"]}
{"id": "C06", "title": "Multi-threaded Badger: safety under every schedule", "statement": "For every interleaving of the main thread, the queue worker and any number of rewrite workers, the circuit returned by multi-threaded Badger costs no more than the input circuit and is obtained from it by a sequence of rewrites (hence is equivalent to it if every rewrite preserves semantics); every circuit is handed to at most one worker.", "quantifier": "all numbers of workers, interleavings, timeouts and rewriters", "why_tests_cant": "interleavings are unbounded", "anchors": ["tket/src/optimiser/badger.rs: badger_multithreaded", "tket/src/optimiser/badger/worker.rs", "tket/src/optimiser/pqueue_worker.rs"]}
{"id": "C07", "title": "Multi-threaded Badger terminates when the search space is exhausted", "statement": "If the set of circuits reachable by rewriting is finite, multi-threaded Badger without timeouts eventually returns, as the single-threaded one does.", "quantifier": "all rewriters with finite reachable sets and all schedules", "why_tests_cant": "liveness over all schedules", "anchors": ["tket/src/optimiser/badger.rs: badger_multithreaded", "tket/src/optimiser/badger/worker.rs", "tket/src/optimiser/pqueue_worker.rs"]}
{"id": "C08", "title": "Cost pruning between workers tightens and is sound", "statement": "The bound shared between the queue and the workers is updated to the worst queued cost when the queue is full, never discards a circuit that the queue would have accepted at that moment, and only ever decreases.", "quantifier": "all histories of enqueue/dequeue", "why_tests_cant": "history-dependent shared variable", "anchors": ["tket/src/optimiser/pqueue_worker.rs: update_max_cost", "tket/src/optimiser/badger/worker.rs"]}
{"id": "C09", "title": "Lexicographic cost is a totally ordered cancellative structure with exact deltas", "statement": "Costs compare lexicographically as a total order compatible with equality; adding costs is associative, commutative, and strictly monotone; (a - b) is the signed difference and applying the delta target - pattern to the cost of a circuit containing the pattern yields exactly the cost of the rewritten circuit, with no saturation.", "quantifier": "all cost vectors of any fixed length", "why_tests_cant": "all integers, all lengths", "anchors": ["tket/src/circuit/cost.rs: LexicographicCost, CircuitCost::{sub_cost,add_delta,div_cost}, CostDelta"]}
{"id": "C10", "title": "Dividing a cost rounds up and covers", "statement": "div_cost(a, n) multiplied by n covers a componentwise and is the least such cost.", "quantifier": "all costs, all n > 0", "why_tests_cant": "all integers", "anchors": ["tket/src/circuit/cost.rs: div_cost"]}
{"id": "C11", "title": "Greedy strategy applies a disjoint set of strictly improving rewrites", "statement": "GreedyRewriteStrategy returns exactly one circuit, obtained by applying rewrites that each strictly reduce the node count and whose matched node sets are pairwise disjoint, every skipped improving rewrite overlaps an applied one, and the reported cost delta is the sum of the applied node-count deltas, hence never positive.", "quantifier": "all circuits and all lists of candidate rewrites", "why_tests_cant": "all sets of overlapping rewrites", "anchors": ["tket/src/rewrite/strategy.rs: GreedyRewriteStrategy::apply_rewrites"]}
{"id": "C12", "title": "Exhaustive strategies only emit allowed, compatible combinations", "statement": "Every circuit produced by the exhaustive greedy strategy is the result of applying, in order of increasing cost delta, at least one rewrite accepted by the cost threshold, each of which touches only nodes untouched by the earlier ones; the reported delta is the sum of their deltas; the threshold strategy yields exactly one circuit per accepted rewrite.", "quantifier": "all candidate lists, costs and thresholds", "why_tests_cant": "all overlapping candidate sets", "anchors": ["tket/src/rewrite/strategy.rs: ExhaustiveGreedyStrategy, ExhaustiveThresholdStrategy, StrategyCost, LexicographicCostFunction"]}
{"id": "C13", "title": "Equivalence class representative is minimal", "statement": "from_circuits picks as representative a circuit with the least number of operations, keeps all the other circuits of the class exactly once, and fails exactly on an empty class.", "quantifier": "all lists of circuits", "why_tests_cant": "all lists", "anchors": ["tket/src/rewrite/ecc_rewriter.rs", "tket/src/optimiser/badger/eq_circ_class.rs: EqCircClass::from_circuits"]}
{"id": "C14", "title": "Chunking partitions the circuit in order and within budget", "statement": "split assigns every operation to exactly one chunk, chunks respect the dataflow order, every chunk but the last cannot take the next operation, and no chunk has more than max_size operations (cost at most max_cost for the cost-based variant).", "quantifier": "all operation sequences, cost functions and bounds", "why_tests_cant": "all circuits and bounds", "anchors": ["tket/src/passes/chunks.rs: CircuitChunks::{split,split_with_cost}"]}
{"id": "C15", "title": "Splitting then reassembling restores the circuit", "statement": "reassemble(split(c)) has the same operations, input/output order and connections as c, also when chunks have been replaced by circuits with the same interface, including chunks that are replaced by direct input-output wires.", "quantifier": "all circuits, all splits, all interface-preserving replacements", "why_tests_cant": "all graphs", "anchors": ["tket/src/passes/chunks.rs: Chunk::{extract,insert}, CircuitChunks::reassemble, transitive_connections"]}
{"id": "C16", "title": "The Pauli commutation table is sound", "statement": "If the table says an operation commutes with Pauli P on one of its qubits then its unitary (for every angle) commutes with P on that qubit; two operations whose table entries on every shared qubit are equal or identity commute as operators.", "quantifier": "all operations, angles, and pairs of operations with any overlap of qubits", "why_tests_cant": "continuum of angles", "anchors": ["tket/src/ops.rs: TketOp::qubit_commutation, Pauli::commutes_with"]}
{"id": "C17", "title": "Greedy commutation preserves circuit semantics", "statement": "apply_greedy_commutation returns a circuit with the same input-output semantics, the same multiset of operations, and never moves an operation to a later time slice.", "quantifier": "all circuits", "why_tests_cant": "all circuits of any size", "anchors": ["tket/src/passes/commutation.rs: apply_greedy_commutation, load_slices, available_slice, commutes_at_slice, PullForward"]}
{"id": "C18", "title": "Greedy commutation accepts every circuit", "statement": "apply_greedy_commutation does not panic on any valid circuit, including circuits that allocate qubits or contain operations it does not know, and never reorders across an operation it cannot see through.", "quantifier": "all valid circuits", "why_tests_cant": "all circuits", "anchors": ["tket/src/passes/commutation.rs: load_slices, free_slice, ComCommand"]}
{"id": "C19", "title": "Command iteration visits each operation once in dataflow order with consistent linear units", "statement": "commands() yields every operation exactly once, after all operations it depends on; linear (qubit) units are threaded: each linear input of a command carries the unit given to the wire by its producer; at any time the live linear units are pairwise distinct.", "quantifier": "all circuits with allocations and frees", "why_tests_cant": "all circuits", "anchors": ["tket/src/circuit/command.rs: CommandIterator::{process_node}, Command::assign_linear", "tket/src/circuit/units.rs: LinearUnitAssigner"]}
{"id": "C20", "title": "Circuit hash is a function of the dataflow graph", "statement": "circuit_hash returns the same value whatever topological order the nodes are visited in and however nodes are numbered; it succeeds exactly on circuits whose outputs are not after a cycle; and (without hash collisions) it determines the operations that feed the output and which port feeds which.", "quantifier": "all acyclic circuits, all topological orders and renumberings", "why_tests_cant": "all orders", "anchors": ["tket/src/circuit/hash.rs: circuit_hash, HashState"]}
{"id": "C21", "title": "Borrow squashing preserves behaviour, including panics", "statement": "Eliding return/borrow pairs of the same index on a borrow array yields the same final array, the same values on every element wire, and panics if and only if the original sequence panics.", "quantifier": "all arrays, all sequences of borrow/return operations with constant indices", "why_tests_cant": "all sequences", "anchors": ["tket/src/passes/borrow_squash.rs: borrow_squash_array, BRAction"]}
{"id": "C22", "title": "Controlled operations are synthesised correctly for any number of controls", "statement": "Resolving a control modifier with any number k of control qubits over a supported gate, or a body of gates and global phases, yields a circuit whose action is exactly the k-controlled gate or body, for every angle, restoring all borrowed qubits; the final removal of global phases changes the action by one global phase only. (Z with two or more controls, CZ and Toffoli with one or more are the subject of C24 and C25.)", "quantifier": "all gates, all k, all angles, all input states", "why_tests_cant": "unbounded number of controls, continuum of angles and states", "anchors": ["tket/src/modifier/modifier_resolver/tket_op_modify.rs: modify_tket_op, rot_angle, modified", "tket/src/modifier/modifier_resolver/global_phase_modify.rs: modify_global_phase"]}
{"id": "C23", "title": "Daggered operations are inverses", "statement": "Resolving a dagger modifier (alone or under any number of controls) yields a circuit whose action is the inverse of the one without dagger.", "quantifier": "all gates, all numbers of controls, all angles", "why_tests_cant": "unbounded", "anchors": ["tket/src/modifier/modifier_resolver/tket_op_modify.rs: modify_tket_op"]}
{"id": "C24", "title": "Multi-controlled Z and CZ are synthesised correctly", "statement": "Z under two or more controls, and CZ under one or more, act as the multi-controlled Z gate.", "quantifier": "all numbers of controls", "why_tests_cant": "unbounded number of controls", "anchors": ["tket/src/modifier/modifier_resolver/tket_op_modify.rs: modify_tket_op (CZ arm)"]}
{"id": "C25", "title": "Controlled Toffoli keeps its qubits in order", "statement": "Resolving a control modifier over Toffoli leaves every output port of the Toffoli carrying the qubit that entered on the same port.", "quantifier": "all numbers of controls", "why_tests_cant": "depends on the recursion over controls", "anchors": ["tket/src/modifier/modifier_resolver/tket_op_modify.rs: modify_tket_op (X|CX|Toffoli arm)"]}
{"id": "C26", "title": "Synthesis of controlled operations always finishes", "statement": "For every supported gate and number of controls the synthesis recursion terminates without reaching an unreachable branch, and uses only gates of the supported set.", "quantifier": "all gates and numbers of controls", "why_tests_cant": "unbounded recursion", "anchors": ["tket/src/modifier/modifier_resolver/tket_op_modify.rs: modify_tket_op"]}
{"id": "C27", "title": "Modifier chains compose", "statement": "Combining a chain of control, dagger and power modifiers gives the control count that is the sum of the chain's controls, the parity of daggers, and control groups listed in chain order; flags read from metadata round-trip; two daggers cancel.", "quantifier": "all chains", "why_tests_cant": "unbounded chains", "anchors": ["tket/src/modifier.rs: CombinedModifier::push, ModifierFlags"]}
{"id": "C28", "title": "Control arrays of chained modifiers line up with the signature", "statement": "For a chain of control modifiers with any sizes, the i-th control argument in the new signature has the type and size of the array which the body unpacks for it.", "quantifier": "all chains of control sizes", "why_tests_cant": "unbounded chains", "anchors": ["tket/src/modifier/modifier_resolver.rs: modify_signature, unpack_controls, pack_controls"]}
{"id": "C29", "title": "Wiring of a modified node is a bijection that sends each port to its counterpart", "statement": "The in/out wiring between an old signature and the modified one maps each old port to exactly one new port; without dagger it is a shift by the number of controls; with dagger quantum inputs and outputs are exchanged position-wise and classical ones keep their side.", "quantifier": "all signatures (any mix of quantum and classical types), both dagger settings", "why_tests_cant": "all signatures", "anchors": ["tket/src/modifier/modifier_resolver.rs: wire_inout, wire_node_inout"]}
{"id": "C30", "title": "Lowering to the QSystem gate set preserves every gate", "statement": "Each TketOp gate lowers to a sequence of PhasedX, ZZPhase and Rz whose action equals that of the gate up to one global phase, for every rotation angle.", "quantifier": "all gates, angles and states", "why_tests_cant": "continuum of angles", "anchors": ["tket-qsystem/src/extension/qsystem.rs: QSystemOpBuilder::{build_h,...,build_toffoli}", "tket-qsystem/src/extension/qsystem/lower.rs: lower_tk2_op, build_to_radians"]}
{"id": "C31", "title": "Lowered measurement returns the qubit in the measured state", "statement": "Lowering Measure (measure-reset then conditional flip) gives the same outcome distribution and post-measurement state as a projective measurement.", "quantifier": "all states", "why_tests_cant": "continuum of states", "anchors": ["tket-qsystem/src/extension/qsystem.rs: build_measure_flip"]}
{"id": "C32", "title": "Lowering is complete", "statement": "Every TketOp has a replacement: after lowering no TketOp remains in the program.", "quantifier": "all programs", "why_tests_cant": "all programs", "anchors": ["tket-qsystem/src/extension/qsystem/lower.rs: lower_tk2_op, check_lowered, direct_map, pi_mul_f64, build_func"]}
{"id": "C33", "title": "Parameter expressions survive the pytket round trip", "statement": "Every angle expression emitted by the encoder is parsed back by the decoder to an expression of the same value.", "quantifier": "all expressions and variable valuations", "why_tests_cant": "all nestings of expressions", "anchors": ["tket/src/serialize/pytket/encoder.rs", "tket/src/serialize/pytket/extension/rotation.rs", "tket/src/serialize/pytket/extension/float.rs", "tket/src/serialize/pytket/decoder/param/parser.rs", "tket/src/serialize/pytket/decoder/param/param.pest"]}
{"id": "C34", "title": "Parameter parser follows Sympy precedence", "statement": "Parsing a Sympy expression string yields the expression Sympy denotes: power binds tighter than unary minus and associates to the right.", "quantifier": "all expression strings", "why_tests_cant": "all strings", "anchors": ["tket/src/serialize/pytket/decoder/param/parser.rs: PRATT_PARSER", "tket/src/serialize/pytket/decoder/param/param.pest"]}
{"id": "C35", "title": "Fresh registers never collide", "statement": "A register produced by the unit generator differs from every register already in the circuit and from every register produced before.", "quantifier": "all initial register lists and numbers of calls", "why_tests_cant": "index wrap-around only after 65536 calls", "anchors": ["tket/src/serialize/pytket/encoder/unit_generator.rs: RegisterUnitGenerator", "tket/src/serialize/pytket/encoder/value_tracker.rs: new_qubit, new_bit"]}
{"id": "C36", "title": "Encoding a circuit for pytket preserves its semantics", "statement": "Running the emitted pytket commands on the registers, starting from the inputs and fresh |0> qubits / 0 bits, gives the same result as the circuit: a newly allocated qubit starts in |0>, a constant bit has its value, and a bit still needed later is not overwritten.", "quantifier": "all circuits over the supported operations, with allocation, measurement and discarding in any order", "why_tests_cant": "histories of allocation and reuse", "anchors": ["tket/src/serialize/pytket/encoder/value_tracker.rs: ValueTracker", "tket/src/serialize/pytket/encoder.rs: emit_node, register_node_outputs", "tket/src/serialize/pytket/extension/tket.rs", "tket/src/serialize/pytket/extension/prelude.rs"]}
{"id": "C37", "title": "Live wires hold distinct registers while encoding", "statement": "At every point of the encoding, the qubits assigned to live wires are pairwise distinct and none of them is on the free list.", "quantifier": "all circuits", "why_tests_cant": "histories", "anchors": ["tket/src/serialize/pytket/encoder/value_tracker.rs: register_wire, wire_values, unregister_wire, new_qubit"]}
{"id": "C38", "title": "Qubit permutations survive encoding", "statement": "If the circuit outputs its qubits in a different order from its inputs, the emitted implicit_permutation describes exactly that reordering.", "quantifier": "all numbers of qubits and permutations", "why_tests_cant": "n! permutations", "anchors": ["tket/src/serialize/pytket/encoder/value_tracker.rs: compute_final_permutation, finish"]}
{"id": "C39", "title": "Implicit permutations are decoded correctly", "statement": "Decoding a pytket circuit with implicit permutation p outputs at the position of p(q) the wire of q, for total and for partial permutations.", "quantifier": "all permutations and register lists", "why_tests_cant": "n! permutations", "anchors": ["tket/src/serialize/pytket/decoder/wires.rs: compute_output_permutation, known_pytket_qubits"]}
{"id": "C40", "title": "Operation tables between tket and pytket are inverse", "statement": "Decoding the encoding of a supported operation returns the same operation with the same arguments and parameters; no two distinct operations share an encoding, except those documented.", "quantifier": "all operations", "why_tests_cant": "finite, but must stay so for every op and parameter", "anchors": ["tket/src/serialize/pytket/extension/tket.rs: TketOpEmitter"]}
{"id": "C41", "title": "Boolean operations survive the pytket round trip", "statement": "A classical boolean operation encoded as a pytket classical expression decodes to the same operation on the same bits, writing to a bit distinct from bits still in use.", "quantifier": "all operations and bit assignments", "why_tests_cant": "histories of bit reuse", "anchors": ["tket/src/serialize/pytket/extension/bool.rs: BoolEmitter", "tket/src/serialize/pytket/encoder.rs: register_node_outputs"]}
{"id": "C42", "title": "Intervals on a resource path describe contiguous, extendable ranges", "statement": "An interval on a qubit path built by any sequence of extensions covers exactly the contiguous run of operations between its ends; extension succeeds exactly when the new node is adjacent; iteration yields the nodes in order.", "quantifier": "all paths and sequences of extensions", "why_tests_cant": "all sequences", "anchors": ["tket/src/subcircuit/interval.rs: Interval::{try_new,try_extend}, nodes_in_interval"]}
{"id": "C43", "title": "Resource tracking threads each linear value through the circuit", "statement": "Resource ids partition the linear wires into paths: every linear port belongs to exactly one resource path, positions strictly increase along dataflow.", "quantifier": "all circuits", "why_tests_cant": "all circuits", "anchors": ["tket/src/resource/scope.rs: ResourceScope::compute_circuit_units", "tket/src/resource/flow.rs: ResourceFlow"]}
{"id": "C44", "title": "Unpacking a container and repacking it is the identity", "statement": "For every type built from tuples, arrays, borrow arrays and arrays of options, unpacking a value into element wires and repacking yields the same value, and the number of wires equals the length of the unpacked row.", "quantifier": "all types and values", "why_tests_cant": "unbounded nesting", "anchors": ["tket/src/passes/unpack_container.rs: UnpackContainerBuilder::{unpack_container,repack_container}", "tket/src/passes/unpack_container/type_unpack.rs: TypeUnpacker::unpack_type"]}
{"id": "C45", "title": "Lazy measurement preserves program results", "statement": "Replacing opaque booleans by bool-or-future and measurements by lazy measurements gives the same values at every observation, and every future handle is read or freed exactly once.", "quantifier": "all straight-line programs over boolean and measurement operations", "why_tests_cant": "all programs", "anchors": ["tket-qsystem/src/replace_bools.rs: lowerer, read_builder, binary_logic_op_dest, measure_dest"]}
{"id": "C46", "title": "ECC rules connect only circuits of the same class", "statement": "Every pattern of the ECC rewriter is a circuit of some class with a valid pattern, and its targets are exactly its partners in that class (the others for the representative, the representative for the others) that leave unused every wire removed from the pattern; no target index is out of range; hence if the circuits of each class are equivalent, every rewrite rule is sound.", "quantifier": "all lists of equivalence classes, any outcome of pattern construction", "why_tests_cant": "all class lists, sizes and positions of invalid patterns", "anchors": ["tket/src/rewrite/ecc_rewriter.rs: from_eccs, get_rewrite_rules, get_patterns, get_targets"]}
{"id": "C47", "title": "Gamma threshold", "statement": "With gamma = 1 a rewrite is accepted exactly if it strictly reduces the cost; with the default gamma = 1.0001 exactly if it reduces the cost or leaves it unchanged (for costs up to 10000).", "quantifier": "all pattern and target costs", "why_tests_cant": "all integers", "anchors": ["tket/src/rewrite/strategy.rs: GammaStrategyCost::under_threshold"]}
{"id": "C48", "title": "Circuit hash distinguishes circuits that differ in any operation", "statement": "Two circuits that differ in an operation, in the function that is called or constant that is loaded, or in an order edge, have different hashes unless the hash function collides.", "quantifier": "all pairs of circuits, all hash functions without collisions", "why_tests_cant": "all circuits; single literals happen to differ", "anchors": ["tket/src/circuit/hash.rs: circuit_hash, hash_node"]}
{"id": "C49", "title": "Reachability queries in a resource scope are exact", "statement": "any_reachable_from returns true if and only if one of the given end nodes can be reached from one of the given start ports by a path of edges that stays within the scope, and it always terminates; the cut-off at the largest position of the ends loses no path.", "quantifier": "all scopes, all lists of start and end ports, all graphs of edges", "why_tests_cant": "the cut-off by position is only wrong for particular combinations of order edges and positions; there are infinitely many graphs", "anchors": ["tket/src/resource/scope.rs: ResourceScope::any_reachable_from"]}
{"id": "C50", "title": "Loading a parameter string never panics", "statement": "For every string, parsing terminates and loading the parsed expression into the circuit does not panic; strings outside the grammar are kept as opaque sympy expressions.", "quantifier": "all strings, all type hints, all floating point semantics", "why_tests_cant": "all strings", "anchors": ["tket/src/serialize/pytket/decoder/param/parser.rs: parse_pytket_param", "tket/src/serialize/pytket/decoder/wires.rs: load_half_turns_parameter"]}
{"id": "C51", "title": "The parameter parser ignores nothing", "statement": "Whenever a string is accepted, the whole string up to white space is a derivation of the parsed expression in the documented grammar, and the operator parser uses every operator and operand.", "quantifier": "all strings", "why_tests_cant": "all strings", "anchors": ["tket/src/serialize/pytket/decoder/param/param.pest", "tket/src/serialize/pytket/decoder/param/parser.rs: parse_infix_ops"]}
{"id": "C52", "title": "Parameter names and circuit inputs correspond one to one", "statement": "Over all expressions of a circuit, two occurrences of variables load the same input wire if and only if the names are equal; names are numbered by first use and take the inputs that exist before new ones are added.", "quantifier": "all lists of expressions, all input signatures", "why_tests_cant": "all lists of expressions", "anchors": ["tket/src/serialize/pytket/decoder/wires.rs: load_half_turns_parameter"]}
{"id": "C53", "title": "Controls of modified loops and conditionals arrive at qubit ports", "statement": "In the tail loop or conditional that the modifier resolver builds, each control qubit and each old input is connected to a port of the new node that has its type.", "quantifier": "all rows of types, all numbers of controls", "why_tests_cant": "all rows of types", "anchors": ["tket/src/modifier/modifier_resolver/dfg_modify.rs: modify_tail_loop, modify_conditional"]}
{"id": "C54", "title": "Every call in a modified function is linked to its callee", "statement": "After a function has been modified, each node of the new function that calls or loads a function is connected to the function it uses, at every depth of nested regions.", "quantifier": "all bodies with calls and nested regions", "why_tests_cant": "all trees of regions", "anchors": ["tket/src/modifier/modifier_resolver/dfg_modify.rs: modify_fn, insert_sub_dfg, update_call_map", "tket/src/modifier/modifier_resolver/call_modify.rs: modify_call"]}
{"id": "C55", "title": "An inserted runtime barrier acts on exactly the qubits of its row", "statement": "The graph inserted behind a barrier hands all qubits in the barrier's row, inside tuples and arrays too, to one runtime barrier, each once and in order, puts the returned qubits in their places and leaves everything else unchanged.", "quantifier": "all barrier rows and values, all barriers returning as many qubits as they take", "why_tests_cant": "unbounded nesting of containers", "anchors": ["tket-qsystem/src/extension/qsystem/barrier/barrier_inserter.rs: insert_runtime_barrier, build_packing_hugr", "tket-qsystem/src/extension/qsystem/barrier/wrapped_barrier.rs: build_runtime_barrier"]}
{"id": "C56", "title": "Decoding a pytket circuit preserves its meaning", "statement": "The circuit that the decoder builds computes what the pytket commands compute: with the inputs in the first registers and zeroes in the others, its outputs are the final values of the registers, in the order of the output permutation. It is well-typed, uses each qubit exactly once, and every valid circuit is decoded.", "quantifier": "all pytket circuits, signatures, output permutations and meanings of the operations", "why_tests_cant": "unbounded command lists, all interleavings of bit conversions and reads", "anchors": ["tket/src/serialize/pytket/decoder.rs: PytketDecoderContext", "tket/src/serialize/pytket/decoder/wires.rs: WireTracker"]}
{"id": "C57", "title": "Rewriting at a pattern match preserves the meaning of the circuit", "statement": "If a circuit becomes a pattern and a replacement computes the same in every place, then replacing any accepted match of the pattern in any valid circuit gives a circuit that is well typed, acyclic, uses linear values at most once and computes the same; and every occurrence of the pattern whose inputs are different values is found.", "quantifier": "all patterns, circuits, matches, replacements, edge orders of the matcher, and interpretations of the operations (including quantum states over any commutative ring)", "why_tests_cant": "all circuits and patterns, all execution orders, all states", "anchors": ["tket/src/portmatching/pattern.rs: CircuitPattern::try_from_circuit, get_match_map", "tket/src/portmatching/matcher.rs: validate_circuit_edge, validate_circuit_node, PatternMatch::try_from_root_match", "tket/src/portmatching.rs: PEdge", "tket/src/rewrite.rs: CircuitRewrite::apply"]}
{"id": "C58", "title": "Any sequence of rewrites preserves the meaning of the circuit", "statement": "However many rewrites are applied, with whatever rules that compute the same on both sides, the circuit stays well typed and acyclic and computes what the original one does.", "quantifier": "all rule sets, circuits, sequences of rewrites", "why_tests_cant": "unbounded sequences", "anchors": ["tket/src/rewrite.rs: Rewriter, CircuitRewrite::apply", "tket/src/portmatching/matcher.rs: PatternMatch::to_rewrite"]}
{"id": "C59", "title": "Removing tuples that are packed and unpacked again preserves the region", "statement": "Every rewrite found by find_tuple_unpack_rewrites keeps the region valid and well typed (linear values used at most once, the same types at inputs and outputs) and its results and effects the same; applying rewrites until there is none ends, never panics, and leaves no unpack directly after a pack.", "quantifier": "all regions, all other operations with any effects, all element types and tuple sizes, any number of unpack nodes and other uses of a tuple", "why_tests_cant": "The tests use three fixed regions with two elements, all elements used, and at most one other use of the tuple. The output order of the subgraph, unused elements, repeated uses and nested tuples are unbounded combinations.", "anchors": ["tket/src/passes/tuple_unpack.rs: find_tuple_unpack_rewrites, make_rewrite, remove_pack_unpack", "tket/src/rewrite.rs: CircuitRewrite::apply"]}
{"id": "C60", "title": "Removing empty wires keeps the rest of the circuit", "statement": "empty_wires lists, in order, exactly the inputs that no node uses and that are at most once an output. Removing them, from the last to the first, never panics and gives the circuit without them: the other inputs and outputs keep their order and every node its operands; none is empty afterwards. A single removal fails exactly if there is no such input or it is not empty (with a panic, not an error, for the offset just after the last input). Circuits of gates that compute the same still do so without wires that are empty in both.", "quantifier": "all valid circuits, all sets of empty wires, any number of inputs, outputs and nodes, all gate semantics with at least two classical values", "why_tests_cant": "The tests remove one or two wires from fixed circuits. The shifts of the ports at input and output node, and that an empty wire leads to the same output in both circuits, range over all positions and permutations.", "anchors": ["tket/src/circuit.rs: remove_empty_wire, shift_ports, update_signature", "tket/src/rewrite/ecc_rewriter.rs: empty_wires"]}
{"id": "C61", "title": "The ECC rewriter, from its classes to the rewritten circuit, preserves meaning", "statement": "If the circuits of every class are valid, have the same typing and compute the same, then no rewrite of the rewriter built from the classes panics, and every rewrite at a match, and every sequence of rewrites, gives a valid, well typed circuit that computes what the original does: with the empty wires of patterns removed, and the same wires removed from the replacement.", "quantifier": "all sets of classes, all valid circuits without containers, all matches, targets and sequences of rewrites, all gate semantics", "why_tests_cant": "The tests count the matches of a few classes and never compare what circuits compute. The claim needs the pattern, the removed wires, the rule table and the replacement to fit together for every class and every circuit.", "anchors": ["tket/src/rewrite/ecc_rewriter.rs: ECCRewriter::from_eccs, get_rewrites, get_patterns, get_targets", "tket/src/portmatching/matcher.rs: PatternMatch::to_rewrite", "tket/src/circuit.rs: remove_empty_wire"]}
{"id": "C62", "title": "Opaque subgraphs are emitted in dataflow order, convex and connected", "statement": "Encoding a region puts every node in exactly one place: supported nodes become commands, unsupported ones are grouped in barriers or in the extra subgraph. No edge (value or order) leads from a group to an earlier one, so every group is convex; each barrier is connected; two adjacent unsupported nodes are separated only if something before had to read the first; and the encoding fails only if an operation reads a value of a component without registers.", "quantifier": "all regions and topological orders, all sets of supported nodes, all register counts, every order in which the remaining components are taken", "why_tests_cant": "The tests encode a handful of circuits with one or two unsupported operations. The order depends on the interleaving of union-find, extraction at reads and the final sweep over a hash map.", "anchors": ["tket/src/serialize/pytket/encoder/unsupported_tracker.rs: UnsupportedTracker", "tket/src/serialize/pytket/encoder.rs: run_encoder, try_encode_node, get_wire_values, emit_unsupported, finish"]}
{"id": "C63", "title": "Identifiers of opaque subgraphs are unique and resolve to their nodes", "statement": "Over all regions of a circuit the identifiers of opaque subgraphs are unique, and looking up the identifier of any barrier or extra subgraph gives exactly the nodes that it stands for; there is one circuit per region; the traversal of the nested regions ends. (Encoding each region once is false.)", "quantifier": "all circuits, hierarchies, regions and encodings, any nesting depth", "why_tests_cant": "Identifiers are counted per region and merged over an unbounded queue of regions; a clash would silently replace one subgraph by another.", "anchors": ["tket/src/serialize/pytket/opaque.rs: OpaqueSubgraphs, SubgraphId", "tket/src/serialize/pytket/circuit.rs: encode_circuits"]}
{"id": "C64", "title": "Standalone circuits: external payloads become inline, nothing else changes", "statement": "ensure_standalone keeps the commands, at every depth of boxes; replaces each external payload by the inline payload of its subgraph; fails only for an unknown subgraph or one without an inline payload; leaves other data alone and is idempotent. (The last two are false.)", "quantifier": "all circuits and nestings of boxes, all data of barriers", "why_tests_cant": "The tests call it once on circuits whose barriers are all external. Repeated calls and foreign data are never tried.", "anchors": ["tket/src/serialize/pytket/opaque.rs: inline_if_payload", "tket/src/serialize/pytket/circuit.rs: ensure_standalone"]}
{"id": "C65", "title": "Edges between inline payloads are restored, in whatever order the payloads are inserted", "statement": "After all payloads are inserted, each output is connected to every input with the same edge id, exactly once, independently of the order of the payloads; it panics exactly if two outputs have the same id; and the ports are those of the inserted nodes. (The last is false for inputs.)", "quantifier": "all lists of payloads, ids, ports and node maps", "why_tests_cant": "Sources and targets can be seen in any order and number; renumbering on insertion depends on the whole graph built so far.", "anchors": ["tket/src/serialize/pytket/decoder/wires.rs: connect_unsupported_wire_targets, connect_unsupported_wire_source", "tket/src/serialize/pytket/decoder/subgraph.rs: wire_inline_subgraph_inputs, wire_inline_subgraph_outputs"]}
{"id": "C66", "title": "A modified region is well formed", "statement": "Modifying a well formed region of unitary gates and classical operations succeeds and gives a well formed region: each input port has one edge, each quantum output port has one edge, edges join ports of one type, there are no cycles, the controls come first in the rows, and the nodes are the old ones with controls and dagger added to the gates.", "quantifier": "all regions, topological orders, numbers of controls, with or without dagger", "why_tests_cant": "The tests modify a few functions with a handful of gates and check that the result validates; the wiring depends on the traversal order and on a map between old and new ports that grows with the region.", "anchors": ["tket/src/modifier/modifier_resolver/dfg_modify.rs: modify_dfg_body, modify_dfg_children, modify_in_out_node, wire_control_to_output", "tket/src/modifier/modifier_resolver.rs: map_insert, add_edge_from_pv, connect_all, modify_dataflow_op"]}
{"id": "C67", "title": "A region has one run, whatever the order of its nodes", "statement": "For inputs of the right types there is one assignment of values to wires, with one list of gates; qubits are neither copied nor lost, no gate gets a qubit twice; and in another topological order the gates differ only by exchanging neighbours without a common qubit.", "quantifier": "all regions, inputs, classical operations, pairs of topological orders", "why_tests_cant": "The number of topological orders is exponential; the resolver visits the region in one of them.", "anchors": ["tket/src/modifier/modifier_resolver/dfg_modify.rs: modify_dfg_body, modify_dfg_children, modify_in_out_node, wire_control_to_output", "tket/src/modifier/modifier_resolver.rs: map_insert, add_edge_from_pv, connect_all, modify_dataflow_op"]}
{"id": "C68", "title": "A modified region runs the modified gates on the same qubits", "statement": "Each run of a region gives a run of the modified region in which the controls pass through, each gate gets the controls and its old qubits and angle, classical values are those of the old run, and under a dagger the gates are in reverse order and quantum inputs and outputs are exchanged; each run of a daggered region arises so.", "quantifier": "all regions of gates and classical operations, inputs, controls, with or without dagger", "why_tests_cant": "Compares two graphs on all inputs; the tests only look at the shape of small outputs.", "anchors": ["tket/src/modifier/modifier_resolver/dfg_modify.rs: modify_dfg_body, modify_dfg_children, modify_in_out_node, wire_control_to_output", "tket/src/modifier/modifier_resolver.rs: map_insert, add_edge_from_pv, connect_all, modify_dataflow_op"]}
{"id": "C69", "title": "The meaning of a modified region is the controlled (inverse) meaning of the region", "statement": "The gates that the code makes for the nodes of the modified region, one after the other, act as the gates of the region performed when all controls are 1; under a dagger they are the two-sided inverse of this; and this does not depend on the topological order. (Excluded: gates whose controlled form is wrong, C24 and C25.)", "quantifier": "all regions of unitary gates and classical operations, angles, numbers of controls, states of any number of qubits", "why_tests_cant": "An equation between linear maps on states of unboundedly many qubits for all real angles.", "anchors": ["tket/src/modifier/modifier_resolver/dfg_modify.rs: modify_dfg_body, modify_dfg_children, modify_in_out_node, wire_control_to_output", "tket/src/modifier/modifier_resolver.rs: map_insert, add_edge_from_pv, connect_all, modify_dataflow_op", "tket/src/modifier/modifier_resolver/tket_op_modify.rs: modify_tket_op"]}
{"id": "C70", "title": "Other operations on qubits are modified or refused", "statement": "An operation on qubits that the resolver cannot control or dagger makes the modification fail. (False: it is copied as it is.)", "quantifier": "all operations, controls, with or without dagger", "why_tests_cant": "No test modifies a function with operations of another extension.", "anchors": ["tket/src/modifier/modifier_resolver.rs: modify_extension_op"]}
{"id": "C71", "title": "The LLVM code of a program does what the program means", "statement": "For a typed straight-line program of quantum, future, random, result, rotation, boolean and option operations the emitter gives code, and in every module that extends the constants the code ends in the same state of the runtime as the program with the same values on all wires, or panics exactly when the program does.", "quantifier": "all typed programs, parameters, runtimes (machines), modules, f64 additions", "why_tests_cant": "The tests compare snapshots of the text of a few operations; they do not run the code and cannot range over runtimes.", "anchors": ["tket-qsystem/src/llvm/qsystem.rs", "tket-qsystem/src/llvm/futures.rs", "tket-qsystem/src/llvm/random.rs", "tket-qsystem/src/llvm/result.rs", "tket/src/llvm/rotation.rs", "tket/src/llvm/bool.rs"]}
{"id": "C72", "title": "LLVM code uses handles of qubits and futures linearly", "statement": "The code of a linear program never passes a handle that is not allocated, never one qubit twice to a gate, never frees twice, never reads a future without a reference, and at its end exactly the handles of the remaining linear wires are held.", "quantifier": "all linear programs, runtimes, parameters", "why_tests_cant": "Use after free and leaks depend on the answers of the runtime and on the program; no test executes the code.", "anchors": ["tket-qsystem/src/llvm/qsystem.rs: emit_qsystem_op", "tket-qsystem/src/llvm/futures.rs: emit_future_op"]}
{"id": "C73", "title": "Constant strings of a module are right, shared and kept", "statement": "Each request for a constant string gives a global variable with the length byte and the text; existing variables are never changed; the same request gives the same variable; a variable is shared only by equal texts; names are found for all modules and hash functions.", "quantifier": "all modules, sequences of requests, hash functions", "why_tests_cant": "Clashes need collisions of shortened hashes.", "anchors": ["tket-qsystem/src/llvm/prelude.rs: emit_global_string"]}
{"id": "C74", "title": "Tags of results are distinguished", "statement": "Two results share a tag variable only if their tags are equal and their kinds are equal up to sign, in which case the printing functions differ; bad tags are errors. (The last part is false: the compiler panics.)", "quantifier": "all sequences of results and states in a module", "why_tests_cant": "The tests use one tag per module.", "anchors": ["tket-qsystem/src/llvm/result.rs", "tket-qsystem/src/llvm/debug.rs"]}
{"id": "C75", "title": "Exit codes of panics and exits are disjoint and keep the signal", "statement": "Panic codes are above 1000, exit codes at most 1000, and the signal can be read off. (Needs bounds on the signals that are not checked.)", "quantifier": "all u32 signals", "why_tests_cant": "Boundary values of 32-bit wrapping addition.", "anchors": ["tket-qsystem/src/llvm/prelude.rs: emit_panic, emit_exit"]}
{"id": "C76", "title": "Arguments of GPU calls can be read back from the blob", "statement": "The blob is written completely, its size is right, and a reader that knows only the signature recovers all arguments and the output type; other types are refused.", "quantifier": "all lists of arguments and outputs, both byte orders", "why_tests_cant": "Snapshot tests look at one call; offsets depend on all earlier arguments.", "anchors": ["qis-compiler/rust/gpu.rs: generate_signature, pack_arguments"]}
{"id": "C77", "title": "The GPU library is called in the right order", "statement": "In every run the version is validated before any other call and at most once successfully, functions are looked up at most once successfully and cached, after the first failure only its message is requested and the program panics; helper functions are defined once and everything they call is defined.", "quantifier": "all programs, libraries (answers), argument values", "why_tests_cant": "The failing answers of a library and the state of caches over a run are not exercised by snapshot tests.", "anchors": ["qis-compiler/rust/gpu.rs"]}
{"id": "C78", "title": "Random contexts are given once; rotations are finite", "statement": "A second NewRNGContext gives none, and rotations are finite. (Both false: contexts are always given, additions can overflow; rotations are finite without additions.)", "quantifier": "all programs and runtimes", "why_tests_cant": "Needs executions with two calls, or overflowing sums.", "anchors": ["tket-qsystem/src/llvm/random.rs", "tket-qsystem/src/extension/random.rs", "tket/src/llvm/rotation.rs"]}
{"id": "C79", "title": "An expression for a copyable value has exactly the nodes the value needs", "statement": "CopyableExpr::try_new gives the wire itself when its node cannot be part of an expression, and otherwise the error or a subgraph: its nodes are exactly those reached backwards without crossing the given inputs, excluded nodes, nodes with linear values or the scope, in a topological order; inputs, outputs and grouped function calls are exactly the ports where values enter, those used elsewhere, and the calls by function. It never panics on valid circuits.", "quantifier": "all valid graphs, scopes with increasing positions, outputs, given inputs, excluded nodes, tie-breaking of the queue", "why_tests_cant": "The tests build three fixed circuits; shared subexpressions, ties and exclusions interact.", "anchors": ["tket/src/subcircuit/expression.rs: CopyableExpr::try_new, traverse_expression, group_function_calls"]}
{"id": "C80", "title": "Inputs of expressions are in the documented order", "statement": "Inputs are ordered by their index in allowed_boundary_inputs, then by the index of their source in nodes_to_exclude, then as encountered. (The second part is false against inputs from elsewhere.)", "quantifier": "all graphs, given inputs and excluded nodes", "why_tests_cant": "Needs inputs of all three kinds at once.", "anchors": ["tket/src/subcircuit/expression.rs: sort_inputs"]}
{"id": "C81", "title": "Expressions are convex, and the error is only given when they are not", "statement": "A subgraph that is returned is convex and in the past of the output; NotConvex is returned only when it is not; with default arguments it is always convex. (The last two parts are false.)", "quantifier": "all valid graphs of values, scopes, outputs", "why_tests_cant": "Convexity ranges over all paths.", "anchors": ["tket/src/subcircuit/expression.rs: try_new", "tket/src/resource/scope.rs: any_reachable_from"]}
{"id": "C82", "title": "An expression computes the value it is made for", "statement": "Evaluating the nodes in their order from the values at the inputs gives the values of the circuit at all ports, in particular at the output; output() is the port that was asked for. (The last part is false.)", "quantifier": "all graphs, meanings of the operations and runs", "why_tests_cant": "Ranges over the meanings of all operations.", "anchors": ["tket/src/subcircuit/expression.rs: CopyableExpr, output"]}
{"id": "C83", "title": "Programs are well-typed after booleans in static arrays are replaced", "statement": "ReplaceStaticArrayBoolPass takes well-typed programs to well-typed ones in which each type is the old one with tket.bool replaced by bool_t inside static arrays, at any depth, and nowhere else. (False for empty constant arrays.)", "quantifier": "all programs of constants, get, len and unwrap, all types with sums, arrays, functions and nested static arrays", "why_tests_cant": "The tests use three constants with one element each; types nest to any depth.", "anchors": ["tket-qsystem/src/replace_bools/static_array.rs: inner_replace_types, outer_replace_types, replace_const_static_array, len_op_dest, get_op_dest"]}
{"id": "C84", "title": "Replacing booleans in static arrays keeps what programs do", "statement": "From inputs with the same meaning, the program before and the one after the pass end with the same values, or both panic; neither gets stuck. Elements are converted back to tket.bool where they are taken out.", "quantifier": "all well-typed programs on which the pass succeeds, all inputs", "why_tests_cant": "The tests only validate the result, they do not run it; the conversion is recursive in the type.", "anchors": ["tket-qsystem/src/replace_bools/static_array.rs: build_new_to_old, get_op_dest, replace_const_static_array"]}
{"id": "C85", "title": "The pass on static arrays of booleans succeeds", "statement": "The pass gives a result exactly when every get has elements without tket.bool outside static arrays, or made of sums of booleans and such types. (So it is not total: it panics on functions, and on lists or arrays of booleans.)", "quantifier": "all programs and element types", "why_tests_cant": "Ranges over all element types.", "anchors": ["tket-qsystem/src/replace_bools/static_array.rs: build_new_to_old, get_op_dest"]}
{"id": "C86", "title": "Resolving modifiers removes modifiers only", "statement": "The pass ends without panicking. It removes modifiers only, and all of those inside the entry points; all other nodes keep their links; every use of a chain of modifiers is given a new loaded function. (False when a modifier is used twice or modifies an argument: then the users are removed, or the pass panics.)", "quantifier": "all graphs, of any size and nesting, all entry points", "why_tests_cant": "The tests use chains with one call; the loops change the graph they walk over.", "anchors": ["tket/src/modifier/modifier_resolver.rs: resolve_modifier_with_entrypoints, verify, try_rewrite", "tket/src/modifier/modifier_resolver/call_modify.rs: trace_modifiers_chain, get_loaded_function"]}
{"id": "C87", "title": "The clean-up after resolving modifiers ends in bounded time", "statement": "In any graph the clean-up loop ends with a result or a panic, in a number of steps bounded by the size of the graph. (It ends, but no polynomial bounds the steps: they double with each level of calls.)", "quantifier": "all graphs and entry points; for the time, all depths of calls", "why_tests_cant": "Small tests end at once; the time only shows on deep call graphs.", "anchors": ["tket/src/modifier/modifier_resolver.rs: resolve_modifier_with_entrypoints, second loop"]}
{"id": "C88", "title": "Circuits written by quartz are loaded with their meaning", "statement": "A circuit given by commands on named wires is loaded as a valid graph with the same meaning, whatever the operations mean. (False when a command gives its output qubits other names than its inputs.)", "quantifier": "all lists of commands on known names, all numbers of qubits and parameters, all semantics of the operations and all inputs", "why_tests_cant": "The shipped files never rename a qubit; tests only check that they load.", "anchors": ["tket/src/optimiser/badger/qtz_circuit.rs: RepCircData, map_op, From<RepCircData> for Circuit"]}
{"id": "C89", "title": "Every class of a quartz file is kept", "statement": "All equivalence classes of a file are loaded with all their circuits, under the id of the first circuit, whatever order the hash map yields them in. (False when two classes start with the same id.)", "quantifier": "all lists of classes and all orders of them", "why_tests_cant": "The order of a hash map differs from run to run; the shipped files have no repeated ids.", "anchors": ["tket/src/optimiser/badger/qtz_circuit.rs: load_ecc_set"]}
{"id": "C90", "title": "The dagger of operations on arrays is their inverse", "statement": "Under a dagger an operation on arrays is replaced by one that undoes it, whose ports stand for the old ones with the same types, qubits reversed and classical values not; an operation without such an inverse gives an error. (False for swap, for arrays of classical values, and for the other operations on arrays, which panic.)", "quantifier": "all kinds of arrays, element types, sizes and controls; all other operations with reversible rows", "why_tests_cant": "The tests have arrays of qubits that are made and unpacked; no other operation on arrays is tried.", "anchors": ["tket/src/modifier/modifier_resolver/array_modify.rs: generic_modify_array_op, try_array_convert", "tket/src/modifier/modifier_resolver.rs: modify_extension_op, modify_dataflow_op"]}
{"id": "C91", "title": "Operations under control are controlled or rejected", "statement": "Without a dagger, an operation that is not a gate is placed with its ports unchanged; if it acts on qubits and there are controls, it is controlled, or an error is given. (The second part is false: it is copied.)", "quantifier": "all operations, all numbers of controls", "why_tests_cant": "Tests that resolve modifiers only contain known gates.", "anchors": ["tket/src/modifier/modifier_resolver/array_modify.rs: try_array_convert", "tket/src/modifier/modifier_resolver.rs: modify_extension_op, add_node_no_modification"]}
{"id": "C92", "title": "The cache of the type translators changes no answer", "statement": "Whatever type translators are added and types translated, in whatever order, each answer is the one the translators added so far give without a cache: one answer per type; parameters only for floats and rotations themselves; counts of tuples are sums, also when tuples are regrouped.", "quantifier": "all sequences of additions and queries, all translators (also ones that ask the set about other types), all types", "why_tests_cant": "A stale cache needs particular sequences of calls; the tests make a fresh set for each type.", "anchors": ["tket/src/serialize/pytket/config/type_translators.rs: add_type_translator, type_to_pytket, type_to_pytket_internal, translators_for_extension"]}
{"id": "C93", "title": "Constants are encoded by values that hold their parts", "statement": "The values for a constant are new, different bits and parameters which hold the parts of the constant in the order of the parts of its type, as many as its type has registers. (False for tuples with bools, of which only one bit is encoded, and for nested tuples, whose parts come last.)", "quantifier": "all constants, emitters, translators that agree with them, and states of the encoder", "why_tests_cant": "The tests encode single bools, floats and rotations; tuples with several parts and nesting are not tried.", "anchors": ["tket/src/serialize/pytket/config/encoder_config.rs: const_to_pytket, emitters_for_extensions", "tket/src/serialize/pytket/extension/bool.rs: const_to_pytket"]}
{"id": "C94", "title": "Emitters are tried in the order in which they were added", "statement": "A constant or operation is encoded by the first emitter added that is for its extensions, or for all, and accepts it. (For operations those for its extension come before those for all.)", "quantifier": "all lists of emitters, constants and operations", "why_tests_cant": "The default configuration has one emitter for each extension.", "anchors": ["tket/src/serialize/pytket/config/encoder_config.rs: add_emitter, op_to_pytket, emitters_for_extension, emitters_for_extensions"]}
{"id": "C95", "title": "Putting a circuit back in place keeps unsupported nodes and their links", "statement": "After reassemble_inplace, unsupported nodes are in the region again, what is inside them and outside the region has not moved, and encoded nodes are gone. Each input port of a kept node whose link came from a kept node has this link and no other; a link from the region's input node is from the new input node, if the type is unsupported or the target is in a nested region.", "quantifier": "all hugrs, regions, groups of unsupported nodes, and sequences of steps of the decoder", "why_tests_cant": "The round-trip tests have few circuits with unsupported operations, mostly with one group and one use of each value.", "anchors": ["tket/src/serialize/pytket/opaque/subgraph.rs: try_from_nodes", "tket/src/serialize/pytket/decoder/subgraph.rs: insert_external_subgraph, rewire_external_subgraph_inputs, rewire_external_subgraph_outputs", "tket/src/serialize/pytket/circuit.rs: reassemble_inplace"]}
{"id": "C96", "title": "Links between encoded and unsupported parts are replaced by those of the decoder", "statement": "An input with registers or a parameter which a group gets from another part of the region is linked to the wire that the decoder found, and to nothing else; outputs of unsupported types go to the new output node; every input that had a link has one again. (False for values with registers used both inside and outside of a group, for parameters from another group, and for values of encoded nodes used in nested regions.)", "quantifier": "all hugrs, regions, groups of unsupported nodes, wires found and sequences of steps of the decoder", "why_tests_cant": "The failures need a value with several uses, or two groups joined by an angle, or a nested region that uses an encoded value.", "anchors": ["tket/src/serialize/pytket/opaque/subgraph.rs: try_from_nodes", "tket/src/serialize/pytket/decoder/subgraph.rs: insert_external_subgraph, rewire_external_subgraph_inputs, rewire_external_subgraph_outputs", "tket/src/serialize/pytket/circuit.rs: reassemble_inplace"]}
{"id": "C97", "title": "Result operations and their type arguments are translated into each other", "statement": "Arguments that fit the declared parameters of a result operation give this operation, which has the same arguments again; every operation made by the constructors comes back from its arguments; operations with equal names and arguments are equal. (False of arguments that do not fit: they are accepted, some for another operation.)", "quantifier": "all operations, tags, lengths and widths, all lists of arguments", "why_tests_cant": "The tests instantiate one operation of each kind, with one width and one length.", "anchors": ["tket-qsystem/src/extension/result.rs: ResultOpDef::instantiate, type_params, ResultOp::array_op, type_args, concrete_result_op_type_args"]}
{"id": "C98", "title": "Arrays of results are printed as they are", "statement": "The runtime is given the elements of the array in order, with a mask of zeros, and other memory is unchanged, for both lowerings of arrays; arrays that are turned into pointers and back have the same elements; the array of a state result is given back. Only lengths of 2^32 and more are refused. (False for integers of less than 64 bits, and the stack that is used is not bounded in loops.)", "quantifier": "all lengths, values, offsets, memories and numbers of repetitions", "why_tests_cant": "The tests compare the emitted code with snapshots and do not run it; they only use integers of 64 bits.", "anchors": ["tket-qsystem/src/llvm/array_utils.rs: ArrayLowering::array_to_ptr, array_from_ptr, build_array_alloca, struct_1d_arr_alloc", "tket-qsystem/src/llvm/result.rs: build_print_array_call, get_func_print", "tket-qsystem/src/llvm/debug.rs: emit_state_result"]}
{"id": "C99", "title": "The entry point of a program is the function that the runtime calls", "statement": "After a successful run of the pipeline the entry point is what it was, or the only main of a module; the wrapper calls the function of that node, between setup and teardown, if the passes keep it; names of functions are unambiguous; programs are refused exactly if there is no such entry point. (False: a main of a module with inputs is called without them; the entry point is not restored if a pass fails.)", "quantifier": "all modules, entry points, passes and options", "why_tests_cant": "Tests run fixed programs with one main without inputs, and no test makes a pass fail.", "anchors": ["tket-qsystem/src/lib.rs: QSystemPass::run", "qis-compiler/rust/lib.rs: get_entry_point_name, wrap_main, process_hugr, compile"]}
{"id": "C100", "title": "Operations are ordered so that reads come late and quantum operations early", "statement": "In the order that is forced on a region every node comes once, after its predecessors. What comes after a read of a future is a read or depends on one that was left; a quantum operation that comes after a classical one depends on a classical one that was left; frees come before anything else that can be done; allocations wait for quantum operations that can be done. (False: allocations do not come as late as possible; n qubits may be in use where one would do.)", "quantifier": "all regions without cycles, all orders that choose a node of least rank", "why_tests_cant": "One test checks the order of five nodes.", "anchors": ["tket-qsystem/src/lib.rs: QSystemPass::force_order"]}
{"id": "C101", "title": "A circuit that is loaded by name is the first function of that name in the package", "statement": "Searching a package for a function gives the first function of that name in the first module that has one, and its module; it is not found exactly if no module has it, and then all the names of functions are listed. (False: for the empty name; a generic function of that name hides later ones; the list has empty names of what is not a function.)", "quantifier": "all packages and names", "why_tests_cant": "Tests load packages with one module and a few functions.", "anchors": ["tket/src/serialize.rs: Circuit::load_function, find_function_in_modules, find_function"]}
{"id": "C102", "title": "Types and operations of compute extensions survive being written and read", "statement": "Types of a compute extension are read back by it and by no other; operations are got back from their definition and arguments, which are exactly those listed; a call built on a function that was looked up has its inputs, and reading its result gives the context and its outputs; contexts are made and ended only by their operations. (False: arguments and bounds of modules and contexts are not checked when they are read.)", "quantifier": "all extensions, types, operations, rows of types and arguments", "why_tests_cant": "Tests use a few fixed rows.", "anchors": ["tket-qsystem/src/extension/classical_compute.rs: ComputeType, ComputeOp, ComputeOpBuilder", "tket-qsystem/src/extension/classical_compute/wasm.rs: TryFrom<CustomType>", "tket-qsystem/src/extension/classical_compute/gpu.rs: TryFrom<CustomType>"]}
{"id": "C103", "title": "The trace of a circuit tells which rewrites were applied to it", "statement": "For a circuit with tracing enabled, the trace is the list of the rewrites applied since, in order, with the number of rewrites composed in each; the greedy strategy adds one entry for each rewrite, the exhaustive one a single entry with their number; enabling again keeps it; without the feature nothing changes. (False: rewrites that fail are traced; counts wrap at 65536; foreign metadata is cut or panics.)", "quantifier": "all circuits, rewrites, sequences of rewrites and metadata", "why_tests_cant": "Tests trace three rewrites on one circuit, none of which fails.", "anchors": ["tket/src/rewrite/trace.rs: enable_rewrite_tracing, add_rewrite_trace, rewrite_trace", "tket/src/rewrite.rs: CircuitRewrite::apply, apply_notrace", "tket/src/rewrite/strategy.rs: GreedyRewriteStrategy, ExhaustiveGreedyStrategy"]}
{"id": "C104", "title": "Calls into TKET1 free what they allocate and run the pass on every circuit", "statement": "Running a pass on circuits never uses or frees a pointer that is not allocated, frees the circuits, passes and strings that it allocates on every way out, and touches no others; it succeeds exactly if each circuit can be written, read, changed and read back, and gives what the pass makes of each. (False: a string that cannot be read back is not freed.)", "quantifier": "all circuits, passes and memories, and all behaviours of the C library", "why_tests_cant": "Tests run passes that succeed; leaks are not seen by them.", "anchors": ["tket1-passes/src/lib.rs: Tket1Circuit, Tket1Pass", "tket-py/src/passes/tket1.rs: tket1_pass"]}
{"id": "C105", "title": "Turning a block into a dataflow graph drops the empty tag and keeps the outputs", "statement": "If the first output of a block is an empty tag, the new output node gets the other outputs from the same sources, in order, and the order edge; all other nodes and links stay but for the tag; the parent has the ports of its new signature. (False: the number of output ports is that of the inputs; two order edges panic; other uses of the tag lose it.)", "quantifier": "all regions whose first output is an empty tag", "why_tests_cant": "The function is not used at present, so no test reaches it.", "anchors": ["tket/src/circuit/extract_dfg.rs: rewrite_into_dfg, remove_cfg_empty_output_tuple"]}
{"id": "C106", "title": "Operations of small extensions are read back, and keep qubits and contexts", "statement": "Each operation of the random, debug, global phase and guppy extensions is read back from its extension, name and arguments, and nothing else is read as an operation. Signatures keep the number of qubits and of random contexts, but for making and deleting a context and for drops of affine values. Random operations have the signatures in their comments. (False: drops of qubits are allowed; random floats are f32 in the comment and 64 bits in the signature.)", "quantifier": "all operations, tags, sizes and types; all extension names, operation names and argument lists", "why_tests_cant": "Tests read back one state result and the six random operations; tags, sizes, types and wrong arguments are unbounded.", "anchors": ["tket-qsystem/src/extension/random.rs: RandomOp", "tket/src/extension/debug.rs: StateResult, StateResultDef", "tket/src/extension/global_phase.rs: GlobalPhase", "tket/src/extension/guppy.rs: GUPPY_EXTENSION"]}
{"id": "C107", "title": "Normalizing Guppy programs runs the enabled passes once each and in order", "statement": "NormalizeGuppy runs just the passes whose options are on, once each, in the order that its comments ask for. An error is that of the first enabled pass that fails, and no pass is run after it. Any meaning that the enabled passes keep is kept. With all options off nothing changes. Each setter sets its own option only.", "quantifier": "all options, all behaviours of the passes, all graphs and meanings", "why_tests_cant": "There is one test with a small graph, on which the pass that it leaves on does nothing; 64 sets of options and failures of passes are not tested.", "anchors": ["tket/src/passes/guppy.rs: NormalizeGuppy, NormalizeGuppyErrors"]}
