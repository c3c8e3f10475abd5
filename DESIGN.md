# Formal model of CQCL/tket2 in Rocq (Coq 8.16.1)

The source under study is `/repo` (never modified, never run). Everything here is
a hand-written Gallina model of that source, plus theorems about the model.

## Layout

`rocq/theories/` has five kinds of files, per area:

* `*Model.v`  : the code, function by function. Each definition cites the file and
  lines it models and states what it simplifies.
* `*Spec.v`   : the small independent vocabulary used to state properties
  (gate matrices, reference evaluators, abstract histories). It does not use the functions of
  the model; where model and specification talk about the same data it uses the data types.
* `*Proofs.v` : lemmas.
* `*Main.v`   : the proofs of the property theorems, from those lemmas.
* `*Props.v`  : only the property theorems, each closed by `exact lemma`, followed by
  `Print Assumptions` and an `Example` showing that a concrete case meets the hypotheses.

## Plan per property

| id | what is modelled | how it is proved |
|----|------------------|------------------|
| C01 | `StatePQueue` as a record of association lists; double-ended priority queue as a list with arbitrary tie-breaking | invariant by induction over operation lists |
| C02 | same, with the all-time-best queue | invariant: best list = n least of accepted history; refutations for `truncate` |
| C03 | the backtracking loop as a fuelled recursion with oracle for timeouts | loop invariant, reachability |
| C04 | same | closure of the visited set under next_states |
| C05 | same | refutation witness under cut-off, proof on exhaustion |
| C06 | main, queue worker and rewrite workers as a transition system over bounded/unbounded channels | inductive invariant over all runs |
| C07 | same | refutation: a reachable state with no enabled step other than waiting |
| C08 | `update_max_cost` | refutation (never set) and soundness of the filter |
| C09, C10 | `LexicographicCost` over lists of N with u64 saturation | algebra, lia |
| C11, C12 | strategies over abstract rewrites (id, node set, delta) | induction over the candidate list |
| C13 | `from_circuits` | list lemma |
| C14, C15 | grouping of the command list, connection maps, reassembly | induction; map algebra |
| C16, C17 | gate matrices over complex numbers; slice vector; available_slice; re-insertion | operator algebra generated by Paulis; invariant: linearisation of slices is equivalent |
| C18 | same model with error values | refutations + success theorem for the supported fragment |
| C19 | `CommandIterator` unit map | induction over node list; refutation for id collision |
| C20 | hash of nodes as fold over a topological order, abstract combiner | order-independence |
| C21 | borrow-array machine, squash scanner | simulation |
| C22 - C26 | `modify_tket_op`, `modify_global_phase` as a fuelled function emitting gates on named qubits | induction on fuel; 2x2 matrix identities; measure for termination; refutations for CZ/Z and Toffoli |
| C27, C28 | `CombinedModifier`, signature building | induction on chains; refutation for unequal sizes |
| C29 | `wire_inout` | induction on type rows |
| C30, C31 | QSystem decompositions | matrix identities over reals with trigonometry |
| C32 | lowering table | case analysis over ops |
| C33, C34 | printer, PEG grammar and Pratt parser on tokens | induction on expressions; refutations for power/minus |
| C35 | generator with u16 arithmetic | induction over calls; refutation at the wrap |
| C36, C37 | ValueTracker + command emission, machine semantics of pytket commands | simulation; refutations for reuse without reset |
| C38, C39 | permutation functions | list lemmas; refutations |
| C40, C41 | encode/decode tables | case analysis; refutation for bool ops |
| C42, C43 | intervals and resource scope | induction |
| C44 | type unpacker, unpack/repack on values | nested induction on types |
| C45 | boolean programs with futures | simulation |

| C46, C47 | the rule tables of the ECC rewriter, the gamma threshold | list lemmas; refutation for cost 0 |
| C48 | same model as C20 | faithfulness theorem; refutations |
| C49 | `any_reachable_from` | sound always, exact on value edges; refutation with order edges |
| C50 - C52 | loading of parameter strings, PEG semantics, parameter names | induction on fuel and on expressions; refutations for arity |
| C53, C54 | loops and conditionals under modifiers, links of calls | list algebra; refutations |
| C55 | insertion of the runtime barrier | from C44; refutations |
| C56 | the pytket decoder: wire tracker, typed wires, commands, outputs | simulation between registers and wires; invariants for linear use, types and totality; refutations |
| C57, C58 | patterns of circuits, matching along edges, replacement of the subgraph | order independence of execution; a match is an embedding; simulation of the parts before, in and after the image, for any interpretation of operations; refutations |
| C59 | packing and unpacking of tuples, the loop that removes them | simulation along the nodes, counting of uses, decreasing measure; refutation |
| C60 | empty wires and their removal | induction over the removed wires, from the last; renumbering of ports; a probe state for the positions of outputs |
| C61 | the ECC rewriter from classes to rewritten circuit | composition of C46, C57, C60; simulation between a circuit and its copy in another place |
| C62 | opaque components in dataflow order | invariant of the tracker and the emitted commands over the encoder loop; refutations |
| C63 | identifiers of opaque subgraphs over nested regions | invariant over the queue; exponential repetition as a refutation |
| C64 | standalone circuits | structural induction over commands and boxes; refutation |
| C65 | edges between inline payloads | invariant over insertions; refutation |
| C66 | modified regions are well formed | invariant of the correspondence map and the controls over the topological traversal |
| C67 | regions have one run, whatever the order | induction over topological orders; adjacent transpositions of independent gates |
| C68 | runs of a modified region | simulation between the old and the new wires |
| C69 | meaning of a modified region | composition of C68 and the gate synthesis (C22, C23) on states |
| C70 | other operations on qubits | refutation |
| C71 | LLVM code of operations | refinement between a typed program on wires and the instructions, for every runtime |
| C72 | handles of qubits and futures in LLVM code | invariant of a ledger beside the runtime (linear typing), transferred by C71 |
| C73 | constant strings in the module | invariant over all sequences of requests; termination of the search for a name |
| C74 | tags of results and states | injectivity of the tag text; refutation for bad tags |
| C75 | exit codes | arithmetic on i32; refutation without bounds |
| C76 | arguments of GPU calls | round trip with an independent reader of the blob |
| C77 | calls of the GPU library | invariant over runs for every library; closure of the functions in the module |
| C78 | random contexts and rotations | induction over programs; refutations |
| C79 | contents of expressions for copyable values | invariant of the backwards traversal; termination |
| C80 | order of their inputs | sortedness and stability of the sort; refutation for excluded nodes |
| C81 | convexity of expressions | reachability (C45) against paths; refutations of the error's completeness and of the comment |
| C82 | value and output of expressions | evaluation in the order of the nodes against any run of the circuit; refutations for the output |
| C83 | types after the pass on static arrays of booleans | structural induction on types and values; refutation for empty constants |
| C84 | what programs do is kept by that pass | simulation of runs, values compared by what they mean |
| C85 | when that pass panics | exact condition on element types; refutation of totality |
| C86 | what resolving modifiers and the clean-up after it remove | invariants of both worklist loops, termination measures; refutations for shared modifiers and for arguments |
| C87 | the clean-up ends; how long it takes | lexicographic measure in any graph; lower bound 2^d by induction on a family of programs |
| C88 | circuits written by quartz are loaded with their meaning | simulation between named wires and the builder, for every semantics of the operations; refutation for renamed outputs |
| C89 | every class of a quartz file is kept | induction on the inserts; independence of the order; refutation for repeated ids |
| C90 | operations on arrays, and unknown operations, under a dagger | correspondence of ports, inverse relation between inputs and outputs; refutations for swap, classical arrays, panics |
| C91 | the same without a dagger, under controls | identity of ports; refutation: unknown operations are not controlled |
| C92 | the set of type translators and its cache | every sequence of additions and queries answers as a relation without a cache says; uniqueness, totality, shape of counts |
| C93 | constants for pytket | loop over the queue holds the parts, up to order; refutations: bools in tuples, nested tuples |
| C94 | the order of emitters | first in order of addition; refutation for operations |
| C95 | circuits put back in place: nodes and kept links | invariant of the sources of an input port over all steps of the decoder |
| C96 | circuits put back in place: links between encoded and unsupported parts | as C95; refutations: shared values, parameters between groups, nested regions |
| C97 | operations that report results: arguments and back | case analysis on arguments that fit, round trips; refutation for arguments that do not |
| C98 | arrays that are printed | memory of bytes, induction on the elements; refutations for narrow integers and for the stack in loops |
| C99 | entry points from hugr to the wrapper of the runtime | induction on the passes, injective names; refutations for inputs of main and for passes that fail |
| C100 | the order of operations by rank | invariant of the scheduler, well-founded induction on what is put off; refutation for allocations |
| C101 | functions in packages | induction on the modules; refutations for generic functions, the empty name and the list of names |
| C102 | types and operations of the compute extensions (wasm, gpu) | round trips, the arguments accepted, counts of contexts; refutation for arguments of types |
| C103 | traces of rewrites and the strategies that write them | invariant of the loops, induction on what happened; refutations for failed rewrites, the 16-bit count and foreign metadata |
| C104 | memory and results of calls into TKET1 | all ways out of a call, for all behaviours of the library; refutation for strings that cannot be read |
| C105 | blocks that are turned into dataflow graphs | the links of the new output node, for all regions; refutations for order edges, tags that are used elsewhere and port counts |
| C106 | declared operations of the random, debug, global phase and guppy extensions | reading and writing are inverse, for all operations and arguments; qubits and contexts counted in all signatures; refutation for drop |
| C107 | normalization of Guppy programs | the enabled passes run once each and in order, for all options and all passes (parameters); what errors say; preservation of any meaning that the passes keep |

## What is modelled

| Model file | Source |
|---|---|
| `OpsModel` | `tket/src/ops.rs`: the enum, `qubit_commutation`, `commutes_with`, `is_quantum` |
| `ModifierModel` | `tket/src/modifier/modifier_resolver/tket_op_modify.rs`, `global_phase_modify.rs` in full |
| `ResolveModel` | `tket/src/modifier.rs` (chains), the signature, packing, `wire_inout`, call-map and port-correspondence parts of `modifier_resolver.rs`, `dfg_modify.rs`, `call_modify.rs` |
| `QSysModel` | `tket-qsystem/src/extension/qsystem.rs` (builder methods), `qsystem/lower.rs` (table and pass) |
| `PQueueModel`, `SearchModel` | `tket/src/optimiser/pqueue.rs`, `backtracking.rs` in full |
| `BadgerModel` | `tket/src/optimiser/pqueue_worker.rs`, `badger/worker.rs`, `badger_multithreaded` of `badger.rs` |
| `CostModel` | `tket/src/circuit/cost.rs` |
| `StrategyModel`, `EccModel` | `tket/src/rewrite/strategy.rs`, `badger/eq_circ_class.rs`, rule tables of `ecc_rewriter.rs` |
| `ChunksModel` | `tket/src/passes/chunks.rs` |
| `CommModel` | `tket/src/passes/commutation.rs` |
| `BorrowModel` | `tket/src/passes/borrow_squash.rs` |
| `TopoModel`, `HashModel` | petgraph's `Topo`; `tket/src/circuit/hash.rs` |
| `CmdModel` | `tket/src/circuit/command.rs`, `circuit/units.rs` |
| `EncModel` | `tket/src/serialize/pytket/encoder.rs`, `encoder/value_tracker.rs`, emitters of `extension/{tket,bool,prelude,rotation}.rs`; opaque subgraphs are single nodes |
| `PermModel` | `encoder/unit_generator.rs`, `compute_final_permutation`, the permutation part of `decoder/wires.rs` |
| `DecModel` | `tket/src/serialize/pytket/decoder.rs`, `decoder/wires.rs`, the decoders and tables of `extension/{tket,bool,prelude}.rs`; commands that no decoder knows become one opaque node; boxes (`extension/core.rs`), opaque subgraphs and the global phase are left out |
| `ParamModel` | `decoder/param/{param.pest,parser.rs}`, `decoder/param.rs`, `load_half_turns_parameter`, `extension/{float,rotation}.rs` |
| `ScopeModel`, `IntervalModel` | `tket/src/resource/{types,flow,scope}.rs`, `tket/src/subcircuit/interval.rs` |
| `UnpackModel` | `tket/src/passes/unpack_container.rs`, `type_unpack.rs`; `qsystem/barrier/{barrier_inserter,wrapped_barrier}.rs` |
| `LazyModel` | `tket-qsystem/src/replace_bools.rs` on straight-line programs; futures of `extension/futures.rs` |
| `PatModel`, `PatCheck` | `tket/src/portmatching.rs` (edges, node ids), `portmatching/pattern.rs`, match construction of `portmatching/matcher.rs`, `CircuitRewrite::apply` of `rewrite.rs`; the portmatching crate's matcher for one pattern and hugr's `SiblingSubgraph::try_new` and `SimpleReplacement` by what they do |
| `TupModel` | `tket/src/passes/tuple_unpack.rs` in full; hugr's `SiblingSubgraph::try_from_nodes` and `SimpleReplacement` by what they do |
| `EwModel` | `tket/src/circuit.rs`: `remove_empty_wire`, `shift_ports` (not the stored signatures of `update_signature`); `tket/src/rewrite/ecc_rewriter.rs`: `empty_wires`, `get_patterns`, `get_rewrites` over the circuits, patterns and matches of `PatModel` and the rule tables of `EccModel` |
| `OpqModel` | `tket/src/serialize/pytket/encoder/unsupported_tracker.rs`; `encoder.rs`: `run_encoder`, `try_encode_node`, `get_wire_values`, `emit_unsupported`, `finish` (the nodes and their order, not the registers); `opaque.rs`: registry, `inline_if_payload`; `circuit.rs`: `encode_circuits`, `ensure_standalone`; `decoder/subgraph.rs`, `decoder/wires.rs`: edges of inline payloads |
| `DfgModel` | `tket/src/modifier/modifier_resolver/dfg_modify.rs`: `modify_dfg_body`, `modify_dfg_children`, `modify_in_out_node`, `init_control_from_input`, `wire_control_to_output`; `modifier_resolver.rs`: `map_insert`, `add_edge_from_pv`, `add_node_control`, `connect_all`, `modify_dataflow_op`, `modify_extension_op`, on the ports of whole regions (the nodes made for one gate taken together) |
| `GlobModel` | `tket-qsystem/src/llvm/prelude.rs`: `emit_global_string`, `panic`/`exit` codes; the tags of `llvm/result.rs`, `llvm/debug.rs` |
| `LlvmModel` | `tket-qsystem/src/llvm/{qsystem,futures,random,utils,result}.rs`, `tket/src/llvm/{rotation,bool}.rs`: the emission of each operation without arrays, with the meaning of the instructions they build |
| `GpuModel` | `qis-compiler/rust/gpu.rs`: `generate_signature`, `pack_arguments`, validation, cached lookups, checks of responses, definition of helper functions |
| `ExprModel` | `tket/src/subcircuit/expression.rs`: `CopyableExpr::try_new`, `traverse_expression`, `sort_inputs`, `group_function_calls`, `output`; `SiblingSubgraph::new_unchecked` is a tuple, the priority queue gives any node of largest position |
| `StatModel` | `tket-qsystem/src/replace_bools/static_array.rs`: inner and outer replacement of types and constants, `replace_const_static_array`, `build_new_to_old`, `get_op_dest`, `len_op_dest`, on straight-line programs of constants, `get`, `len` and unwrapping; hugr's `ReplaceTypes` as described at the top of the file; function constants left out |
| `CleanModel` | `tket/src/modifier/modifier_resolver.rs`: `verify`, `try_rewrite` and both loops of `resolve_modifier_with_entrypoints`; `call_modify.rs`: `trace_modifiers_chain`, `get_loaded_function`; on graphs of nodes, children and links. The new function itself and power (two inputs) are left out |
| `QtzModel` | `tket/src/optimiser/badger/qtz_circuit.rs`: `map_op`, `From<RepCircData> for Circuit`, `load_ecc_set`; hugr's circuit builder (`append_with_outputs`) and the part of validation that concerns one dataflow graph are modelled as far as they are used. Reading JSON is not |
| `ArrModel` | `tket/src/modifier/modifier_resolver/array_modify.rs` in full; `modifier_resolver.rs`: `add_node_no_modification`, `modify_dataflow_op`, the last arms of `modify_extension_op`; signatures of hugr's array operations |
| `CfgModel` | `tket/src/serialize/pytket/config/type_translators.rs`: `add_type_translator`, `type_to_pytket`, `type_to_pytket_internal`, `translators_for_extension`; `config/encoder_config.rs` in full; `new_bit`, `new_param`, `TrackedValues::append` (not: poisoned cache, errors of emitters) |
| `MovModel` | `tket/src/serialize/pytket/opaque/subgraph.rs`: `try_from_nodes` (not: the flag for inlining); `decoder/subgraph.rs`: `insert_external_subgraph` and its two helpers; `circuit.rs`: `reassemble_inplace`; `decoder.rs`: `run_decoder` (the wires found by the tracker and the nodes made for other commands are given; not: errors) |
| `AresModel` | `tket-qsystem/src/extension/result.rs`: `ResultOpDef` (`type_params`, `instantiate`, not: names and descriptions), `ResultOp` (`array_op`, `type_args`); `llvm/array_utils.rs` without `codegen_extension` and `build_int_array_load`; `llvm/result.rs`: `build_print_array_call`; `llvm/debug.rs`: `emit_state_result`; sizes of elements are those of hugr-llvm, the runtime reads as documented in `array_utils.rs` |
| `PipeModel` | `tket-qsystem/src/lib.rs`: `QSystemPass::run` (the passes are given), `force_order` (the ranks; hugr's `force_order` is taken to choose a node of the least rank among those that can be placed); `qis-compiler/rust/lib.rs`: `get_entry_point_name`, `wrap_main`, `process_hugr`, `compile` up to the wrapper (not: targets, optimisation, metadata, verification) |
| `CompModel` | `tket/src/serialize.rs`: `find_function`, `find_function_in_modules` (not: envelopes, validation, the rest of `check_hugr`); `tket-qsystem/src/extension/classical_compute.rs` and `classical_compute/{wasm,gpu}.rs`: types, operations, arguments, signatures, `add_call`, `add_read_result` (not: constants of modules, the registration of extensions, joined lists as arguments) |
| `TraceModel` | `tket/src/rewrite/trace.rs`, `rewrite.rs`: `apply`, `apply_notrace`, the loops of `GreedyRewriteStrategy` and `ExhaustiveGreedyStrategy` with traces (rewrites are given); `tket1-passes/src/lib.rs` (the C library is given: any behaviour), `tket-py/src/passes/tket1.rs`: the loop over circuits, one after the other and in parallel (in any order, each circuit as a whole; not: encoding and reassembling, which are in the pytket models) |
| `XdfgModel` | `tket/src/circuit/extract_dfg.rs` (marked as unused in the code): `rewrite_into_dfg`, `remove_cfg_empty_output_tuple`; hugr's links, `remove_node`, `add_node_after`, `connect` after their documentation |
| `DeclModel` | `tket-qsystem/src/extension/random.rs`, `tket/src/extension/debug.rs`, `global_phase.rs`, `guppy.rs`: names, arguments and signatures of the operations; hugr's `try_from_name` after its documentation; versions, descriptions and builder methods are left out |
| `NormModel` | `tket/src/passes/guppy.rs`: the options, setters and `run` of `NormalizeGuppy`; the passes that it runs are parameters (`BorrowSquashPass` is modelled in `BorrowModel`, hugr's passes are not) |

Every definition cites its lines and says what it leaves out.

## What is not modelled

* HUGR itself: graph storage, validation, builders, extension registries. Graphs appear as lists of
  nodes with wires; the result of a builder is the list of nodes it adds, or the function the built
  graph computes. `ReplaceTypes` and its linearizer appear only through their contract (LazyModel).
* Serialisation: serde, JSON, binary envelopes, `serialize.rs` but for the search for a function, the contents of opaque payloads.
* LLVM emission beyond `GlobModel`, `LlvmModel`, `GpuModel`: arrays (except the printing of arrays in `AresModel`), containers, control flow, mailboxes of hugr-llvm, LLVM itself, targets and optimisation (`qis-compiler`), Python bindings (`tket-py`), command line tools,
  declarations of the random and debug extensions, registration of extensions.
* Port matching for many patterns at once (the portmatching crate's automaton; every match is checked again by the
  matcher for one pattern, which is modelled); patterns are abstract in the models of rewriters (`EccModel`, `StrategyModel`).
* `badger_split_threads`, logging, wall-clock time (an oracle), allocation failure.
* Floating-point rounding: angles and costs that are f64 in the code are reals or rationals, except in
  `ParamModel`, where constants are an abstract type with the operations the code uses.
* Hash functions: parameters (C20, C48 hold for all of them); collisions of circuit hashes are
  excluded only where a theorem says so.

## Trusted base

* The Coq 8.16.1 kernel, including `vm_compute`.
* The reading of `/repo` recorded in the citations, and for external crates (petgraph, priority-queue,
  crossbeam, pest, hugr) the behaviour stated in the model files.
* The axioms below, all from the standard library: `ClassicalDedekindReals.sig_forall_dec` and
  `sig_not_dec` (the construction of the real numbers) and
  `FunctionalExtensionality.functional_extensionality_dep`. No axiom is declared here. What
  `Print Assumptions` lists per theorem:

<!-- assumptions:begin -->
* `ModifierProps`: `C22_controlled_gate`, `C22_controlled_body`, `C22_phase_deletion`, `C23_dagger_inverse`, `C23_dagger_body`, `C24_controlled_cz_refuted`, `C24_controlled_z_refuted`, `C24_controlled_cz_actual`, `C25_toffoli_order_refuted`, `C25_wire_order`, `C26_synthesis_total`, `C26_phase_total` -- axioms `ClassicalDedekindReals.sig_forall_dec`, `ClassicalDedekindReals.sig_not_dec`, `FunctionalExtensionality.functional_extensionality_dep`.
* `ModifierProps`: `C26_non_unitary_refused` -- axioms `ClassicalDedekindReals.sig_forall_dec`, `FunctionalExtensionality.functional_extensionality_dep`.
* `QSysProps`: `C30_gate_lowering`, `C30_rotations_exact`, `C31_lowered_measurement`, `C31_lowered_execution`, `C32_every_op_lowered`, `C32_pass_complete`, `C32_symbolic_angle_refuted` -- axioms `ClassicalDedekindReals.sig_forall_dec`, `ClassicalDedekindReals.sig_not_dec`, `FunctionalExtensionality.functional_extensionality_dep`.
* `SearchProps`: `C01_refines_bounded_queue`, `C01_bounded_and_unique`, `C02_n_cheapest_accepted`, `C02_n_cheapest_offered`, `C02_large_n_refuted`, `C02_truncate_refuted`, `C03_search_safe`, `C03_search_terminates`, `C03_zero_limit_refuted`, `C04_exhaustive_optimal`, `C04_large_queue_optimal`, `C05_agree`, `C05_cut_off_refuted` -- closed under the global context.
* `StrategyProps`: `C09_total_order`, `C09_addition`, `C09_sum`, `C09_delta_exact`, `C09_delta_wraps_refuted`, `C10_div_covers_least_partial`, `C10_zero_refuted`, `C11_greedy`, `C11_delta_is_op_count_refuted`, `C12_exhaustive_greedy`, `C12_default_threshold`, `C12_exhaustive_threshold`, `C13_representative_minimal`, `C46_rules_within_class`, `C46_rules_sound`, `C47_gamma_partial`, `C47_zero_cost_refuted` -- closed under the global context.
* `ChunksProps`: `C14_partition`, `C14_cost_groups`, `C14_sizes`, `C14_cost_bound_refuted`, `C14_full_refuted`, `C14_zero_refuted`, `C14_huge_bound_refuted`, `C15_roundtrip`, `C15_split_roundtrip`, `C15_replacement`, `C15_shared_wire_refuted` -- closed under the global context.
* `CommProps`: `C16_table`, `C16_pairs`, `C17_semantics_partial`, `C17_order_exists_partial`, `C17_never_later_partial`, `C18_total_partial`, `C18_valuation_exists`, `C18_opaque_refuted`, `C18_classical_cycle_refuted` -- axioms `ClassicalDedekindReals.sig_forall_dec`, `ClassicalDedekindReals.sig_not_dec`, `FunctionalExtensionality.functional_extensionality_dep`.
* `CommProps`: `C16_commutes_with` -- axioms `ClassicalDedekindReals.sig_forall_dec`, `FunctionalExtensionality.functional_extensionality_dep`.
* `CommProps`: `C18_alloc_refuted`, `C18_fresh_qubit_refuted` -- closed under the global context.
* `BadgerProps`: `C06_safety`, `C06_cost_and_meaning`, `C06_best_of_enqueued`, `C06_exhaustive_optimal`, `C07_never_returns_refuted`, `C07_deadlock_refuted`, `C07_with_timeout_partial`, `C07_can_return_partial`, `C07_blocks_only_when_exhausted`, `C08_never_set_refuted`, `C08_full_and_unset_refuted`, `C08_no_discard_partial` -- closed under the global context.
* `BorrowProps`: `C21_array`, `C21_region`, `C21_elision`, `C21_idempotent_refuted` -- closed under the global context.
* `HashProps`: `C20_invariant`, `C20_topo`, `C20_total`, `C20_faithful`, `C48_dead_refuted`, `C48_outside_refuted`, `C48_xor_refuted` -- closed under the global context.
* `CmdProps`: `C19_walk`, `C19_nodes`, `C19_threading`, `C19_distinct_partial`, `C19_distinct_refuted`, `C19_ports_partial`, `C19_outputs_partial`, `C19_ports_refuted` -- closed under the global context.
* `EncProps`: `C36_partial`, `C36_alloc_refuted`, `C36_const_refuted`, `C36_shared_refuted`, `C36_alias_refuted`, `C36_input_refuted`, `C37_partial`, `C37_mixed_refuted`, `C36_lazy`, `C37_opaque_refuted` -- closed under the global context.
* `PermProps`: `C35_checked`, `C35_partial`, `C35_wrap_refuted`, `C35_index_refuted`, `C35_kind_refuted`, `C38_partial`, `C38_refuted`, `C38_round_trip_partial`, `C39_partial`, `C39_total`, `C39_refuted` -- closed under the global context.
* `ScopeProps`: `C43`, `C43_flows`, `C42_new`, `C42_extend_partial`, `C42_history`, `C42_total`, `C42_nodes`, `C42_extend_refuted`, `C49_sound`, `C49_partial`, `C49_refuted` -- closed under the global context.
* `ParamProps`: `C34_partial`, `C34_refuted`, `C33_partial`, `C33_refuted`, `C50_partial`, `C50_refuted`, `C51`, `C52` -- closed under the global context.
* `ResolveProps`: `C27`, `C27_powers`, `C27_flags`, `C28_pack`, `C28_partial`, `C28_indirect_partial`, `C28_refuted`, `C29_bijection`, `C29_shift`, `C29_edges`, `C29_inside`, `C29_dagger_partial`, `C29_dagger_refuted`, `C29_nested_partial`, `C29_nested_refuted`, `C53_partial`, `C53_refuted`, `C54_partial`, `C54_refuted` -- closed under the global context.
* `UnpackProps`: `C44_wires`, `C44_partial`, `C44_back_partial`, `C44_row_partial`, `C44_missing_partial`, `C44_refuted`, `C55_partial`, `C55_transparent_partial`, `C55_refuted` -- closed under the global context.
* `LazyProps`: `C45`, `C45_get` -- closed under the global context.
* `DecProps`: `C40`, `C41_straight_partial`, `C41_direct_partial`, `C41_written`, `C41_refuted`, `C41_nested_refuted`, `C41_positions_refuted`, `C56_meaning_partial`, `C56_tables_partial`, `C56_linear_partial`, `C56_typed_partial`, `C56_total_partial`, `C56_lost_refuted`, `C56_tuple_refuted`, `C56_typed_refuted`, `C56_reads_refuted`, `C56_barrier_refuted` -- closed under the global context.
* `PatProps`: `C57_rewrite_partial`, `C57_found`, `C57_container_refuted`, `C57_constant_refuted`, `C57_shared_refuted`, `C57_call_refuted`, `C58_rewritten_partial` -- closed under the global context.
* `TupProps`: `C59_rewrite`, `C59_loop_partial`, `C59_panics`, `C59_panic_refuted` -- closed under the global context.
* `EwProps`: `C60_removed`, `C60_error`, `C60_meaning`, `C61_everywhere`, `C61_rewrite_partial`, `C61_rewritten_partial` -- closed under the global context.
* `OpqProps`: `C62_order`, `C62_convex`, `C62_connected`, `C62_joined`, `C62_fails`, `C62_total_partial`, `C62_total_refuted`, `C62_order_edges_refuted`, `C63_lookup`, `C63_ends`, `C63_once_refuted`, `C64_inline_partial`, `C64_total`, `C64_twice_refuted`, `C65_edges`, `C65_panics`, `C65_reordered`, `C65_targets_partial`, `C65_targets_refuted` -- closed under the global context.
* `DfgProps`: `C66_well_formed`, `C66_refused`, `C67_one_run`, `C67_any_order`, `C68_modified_run`, `C68_every_run`, `C70_other_operations_refuted` -- closed under the global context.
* `DfgProps`: `C69_meaning`, `C69_order_free` -- axioms `ClassicalDedekindReals.sig_forall_dec`, `ClassicalDedekindReals.sig_not_dec`, `FunctionalExtensionality.functional_extensionality_dep`.
* `LlvmProps`: `C71_refines`, `C72_handles`, `C72_nothing_left`, `C72_watched`, `C73_strings`, `C73_adds_one`, `C73_total`, `C74_tags`, `C74_panic_refuted`, `C74_bad_tags`, `C75_codes`, `C75_ranges_refuted`, `C76_round_trip`, `C76_injective`, `C76_refused`, `C77_calls`, `C77_requests`, `C77_functions`, `C78_new_context_refuted`, `C78_rotations_finite`, `C78_addition_refuted` -- closed under the global context.
* `ExprProps`: `C79_contents`, `C79_total`, `C80_order_partial`, `C80_stable`, `C80_found`, `C80_order_refuted`, `C81_convex_partial`, `C81_complete_refuted`, `C81_default_refuted`, `C82_value`, `C82_output_partial`, `C82_output_refuted` -- closed under the global context.
* `StatProps`: `C83_types_partial`, `C83_unique`, `C83_types_refuted`, `C84_meaning`, `C84_types_partial`, `C84_constants`, `C84_convert`, `C85_total_partial`, `C85_total_refuted` -- closed under the global context.
* `CleanProps`: `C86_resolved_partial`, `C86_cleaned`, `C86_only`, `C86_used_twice_refuted`, `C86_panics_refuted`, `C86_argument_refuted`, `C87_ends`, `C87_time_refuted` -- closed under the global context.
* `QtzProps`: `C88_meaning_partial`, `C88_typed`, `C88_names`, `C88_renamed_refuted`, `C89_classes_partial`, `C89_last`, `C89_lost_refuted` -- closed under the global context.
* `ArrProps`: `C90_arrays_partial`, `C90_others_partial`, `C90_swap_refuted`, `C90_classical_refuted`, `C90_panics_refuted`, `C91_placed_partial`, `C91_uncontrolled_refuted` -- closed under the global context.
* `CfgProps`: `C92_cached`, `C92_answers`, `C92_one`, `C92_total`, `C92_params`, `C92_regroup`, `C93_bool_partial`, `C93_parts_partial`, `C93_counts_partial`, `C93_ends`, `C93_lost_refuted`, `C93_order_refuted`, `C94_consts`, `C94_ops_partial`, `C94_ops_refuted` -- closed under the global context.
* `MovProps`: `C95_nodes`, `C95_links_partial`, `C95_inputs_partial`, `C96_found_partial`, `C96_outputs`, `C96_shared_refuted`, `C96_params_refuted`, `C96_nonlocal_refuted` -- closed under the global context.
* `AresProps`: `C97_arguments`, `C97_operations`, `C97_injective`, `C97_shape`, `C97_array`, `C97_unchecked_refuted`, `C98_printed_partial`, `C98_state`, `C98_length`, `C98_narrow_refuted`, `C98_narrow_values_refuted`, `C98_pointer_inverse`, `C98_stack_refuted` -- closed under the global context.
* `PipeProps`: `C99_restored`, `C99_called_partial`, `C99_names`, `C99_refused`, `C99_inputs_refuted`, `C99_failure_refuted`, `C100_total`, `C100_reads`, `C100_quantum`, `C100_frees`, `C100_allocs_partial`, `C100_late_refuted` -- closed under the global context.
* `CompProps`: `C101_found_partial`, `C101_not_found_partial`, `C101_available`, `C101_listed_refuted`, `C101_parametric_refuted`, `C101_empty_refuted`, `C102_types`, `C102_operations`, `C102_arguments`, `C102_injective`, `C102_builder`, `C102_builder_refused`, `C102_contexts`, `C102_unchecked_refuted` -- closed under the global context.
* `TraceProps`: `C103_greedy`, `C103_exhaustive_partial`, `C103_history`, `C103_off`, `C103_enable_again`, `C103_failed_refuted`, `C103_wrapped_refuted`, `C103_metadata_refuted`, `C104_memory`, `C104_strings_partial`, `C104_result`, `C104_parallel`, `C104_order`, `C104_leak_refuted` -- closed under the global context.
* `XdfgProps`: `C105_outputs_partial`, `C105_same`, `C105_order_refuted`, `C105_shared_refuted`, `C105_ports_refuted` -- closed under the global context.
* `DeclProps`: `C106_operations`, `C106_only`, `C106_injective`, `C106_kept_partial`, `C106_drop_refuted`, `C106_documented_partial`, `C106_float_refuted` -- closed under the global context.
* `NormProps`: `C107_runs`, `C107_error`, `C107_meaning`, `C107_off`, `C107_setters`, `C107_noop` -- closed under the global context.
<!-- assumptions:end -->

## Findings: where the code does not do what the property says

Each is a theorem `..._refuted` with a concrete witness in the model, unless marked (read), which means
that it was seen in the source and is not part of a theorem.

* **Search (C02, C03, C05).** After `truncate` the n-best list can lack cheaper accepted states; with
  n above the queue capacity it is not the n cheapest offered. A state limit of 0 visits one state. Under
  cut-off the best state and the head of the n-best list may differ.
* **Badger (C07, C08).** The shared bound is only lowered if it is already set, and it starts unset: it
  never prunes. Without timeout and circuit limit the main thread never leaves its loop, and once
  the search space is exhausted it waits forever.
* **Costs (C09, C10, C47).** Deltas wrap beyond 2^63; `div_cost` of a component 0 is not the least
  covering cost; the gamma threshold misbehaves for patterns of cost 0.
* **Strategies (C11).** The reported delta is not in general the change of `num_operations`.
* **Chunks (C14, C15).** The first chunk is not always filled; the cost bound can be exceeded; bound 0 and
  bounds beyond `isize` misbehave; a chunk that reads an outer wire twice cannot be reassembled.
* **Commutation (C17, C18).** Allocations and gates on allocated qubits panic; unknown quantum operations are
  crossed; classical dependencies can become cyclic.
* **Commands (C19).** An allocation after a free gets a unit that is in use; `Command` panics when a
  linear port follows a non-linear one.
* **Hash (C48).** Dead operations, identities of nodes outside of the region and pairs of equal order
  predecessors do not count.
* **Borrow squash (C21).** Not idempotent.
* **Controlled gates (C24, C25).** Controlled Z and CZ are synthesised wrongly; Toffoli with further controls
  returns its qubits in the wrong order.
* **Modifier resolver (C27, C28, C29, C53, C54).** Powers only count modulo 2 and are unused; chained
  controls of different sizes give a signature in the reverse order; quantum runs of different length under
  dagger and nested regions with classical wires are miswired; controls of tail loops are appended at
  the end but read at the front; a callee used twice loses a link. (read) `modify_fn_if_needed`
  silently skips functions whose flags do not allow the modifier when inputs equal outputs.
* **QSystem lowering (C32).** The symbolic angle operation is not lowered.
* **pytket encoder (C35 - C38).** A qubit reused after a destructive measurement is not reset; a false
  constant on a reused bit is not written; bits needed later are overwritten; unused input bits share
  registers; a wire of an old and a new qubit gets one register twice; late opaque operations take a
  register in use (`CX q0, q0`); swaps at the output are lost. Registers beyond 65536, indices 65535
  modulo 65536 and bit registers called q collide.
* **pytket decoder (C39, C41, C56).** Partial implicit permutations are decoded wrongly. What the encoder writes for
  an operation on booleans cannot be decoded; nested arguments of classical expressions and the positions
  of their variables are ignored. Qubits and bits of tuples among the inputs are lost and replaced by new
  ones. A converted wire is tracked with its old type, which can give type errors. Reading an opaque boolean
  twice fails, barriers with bits fail. (read) The global phase is dropped; too few bits at a boolean
  expression panic.
* **Parameters (C33, C34, C50).** `**` associates to the left and binds weaker than a minus sign; constants
  near fractions of pi are changed; `inf` becomes a variable; a variable called pi a constant; wrong
  arities and infinite constants panic.
* **Resources (C42, C49).** Extending an interval by a node off its path can return `Ok(None)` instead of an
  error; reachability is incomplete with order edges.
* **Containers (C44, C55).** Tuples with a bare optional qubit fail to build; arrays of elements without wires
  panic in the compiler; arrays of options of other elements than qubits fail; the barrier does not
  see bare optional qubits.
* **Pattern matching (C57).** Containers are compared without their contents, and constants outside of the region not at
  all: patterns with them match circuits that compute something else. A value at two inputs of the pattern prevents the match. Circuits
  with calls cannot become patterns (panic). (read) A pattern input that is not used gives an empty boundary port,
  which `handle_match_error` turns into a panic.
* **Tuples (C59).** The rewrite panics for every tuple with an unpack node when an element of the unpacked tuple is not
  used, or when the tuple has two or more other uses. (read) It also panics when an unpack node lies in a nested region, or
  order edges lead from the pack node through others to the unpack node.
* **Empty wires (C60).** `remove_empty_wire` compares the offset with `num_outputs(inp)`, which counts the port for order edges.
  The offset just after the last input therefore passes the check, and `types.remove` in `update_signature` panics
  where `InvalidPortOffset` is meant (`C60_error`, case `OutOfBounds`).
* **ECC rewriter (C61).** That the wires removed from a pattern can be removed from the replacement, and lead to the same outputs there,
  is not checked by the code beyond the subset test of `from_eccs`. It follows from the circuits computing the same, provided classical types have at
  least two values; with a type of one value, two idle wires of it could be exchanged, and the output counts could differ ("invalid replacement").
  Qubits are compared by identity, so a class whose circuits agree only up to a relabelling of qubits is not covered.
* **Opaque subgraphs (C62, C63).** If a supported operation reads a value of unsupported ones that have no qubits and no bits, say an angle
  that a call returns, the whole encoding fails with `UnsupportedSubgraphHasNoRegisters`, contrary to the comment that this happens only at the end
  (`C62_total_refuted`). A constant is loaded at once even if it has an order edge; then a barrier need not be convex, although `OpaqueSubgraph` says
  that no convexity check is needed (`C62_order_edges_refuted`). A subgraph without registers is registered twice, so containers in it are
  encoded twice, and nested ones exponentially often (`C63_once_refuted`). (read) Parameters that a subgraph outputs are named `1.0_out0`, which the
  decoder reads as an unknown expression: their values are lost. `reassemble` of a standalone circuit drops the extra subgraph and the straight-through wires.
* **Standalone circuits (C64).** `inline_if_payload` takes the data out of every barrier and puts it back only for external payloads. Calling
  `ensure_standalone` twice, or calling it on a circuit with barriers that carry inline payloads or data of the user, erases these
  (`C64_twice_refuted`), although the documentation says that such barriers are ignored.
* **Edges between inline payloads (C65).** The targets of an unsupported edge are not translated to the nodes inserted: the edge is connected to whatever
  nodes have these numbers (`C65_targets_refuted`).
* **Modified regions (C66 to C70).** An operation on a qubit from an extension that tket does not know is copied as it is ("we try to place the original
  operation"): under controls it is performed whatever the controls are, and under a dagger it stands in the wrong place with its own direction
  (`C70_other_operations_refuted`), without an error. (read) `connect_all` drops order edges. The block of a gate gives back its qubits in order
  except for controlled Toffoli (C25), so C69 excludes it, with CZ and Z under two or more controls (C24).
* **LLVM code (C74, C75, C78).** A result with an empty tag, or one whose text is 256 bytes or longer, panics in the compiler (`unwrap`), while the same tag
  of a state is an error. The codes of exits and panics overlap for signals above 1000, and a panic with a signal near 2^31 has a negative code.
  `NewRNGContext` always gives a context although its description says "Return None on second call". The sum of two rotations is not checked and can be
  infinite. (read) signed and unsigned integer results share one tag text; only the function that prints tells them apart.
* **Expressions for copyable values (C80 - C82).** Inputs from excluded nodes come after those from anywhere else, not before (`Option`: `None < Some`). The error
  `NotConvex` is also given for convex expressions: reachability goes from node to node, so an inner value that is used elsewhere "reaches" any
  later input (x = f a, y = k x b, x used too). Expressions are not "always convex". `output()` is the first linked port of the node, not the one that was asked for, and panics if
  nothing is linked.
* **Static arrays of booleans (C83, C85).** A constant `static_array<tket.bool>` without elements is not changed, while the type of its load is: the program is
  ill-typed afterwards. The pass panics on a well-typed `get` of elements with a `tket.bool` beside a function, or of elements with a list or array of `tket.bool`
  (the conversion back leaves these alone, and the graph that is built does not validate).
* **Clean-up after resolving modifiers (C86, C87).** A modifier whose result is used twice, or whose function is an argument, is skipped with an error that is
  ignored; the clean-up then removes it together with everything after it: the calls, and the output of the function. With two links to the same node it panics,
  because the node is removed twice. The loop does not look whether a node was visited when it takes it from the queue: on functions that each call the next one
  twice it takes 2^d steps.
* **Quartz files (C88, C89).** The loader says that quartz names output wires arbitrarily, but the names of the qubits that come out of a command are never looked
  at: with renamed outputs the circuit is loaded with a different meaning and without an error. Two classes whose first circuits have the same id are merged into
  the one the hash map yields last. The shipped files have neither.
* **Operations on arrays under modifiers (C90, C91).** The dagger of an array `swap` is a swap with its ports reversed: types differ and ports do not exist. Arrays of
  classical values are reversed like arrays of qubits, so that joining them to their neighbours fails; `get`, `set`, `pop_*` and `discard_empty` panic. Without a dagger
  `try_array_convert` takes every operation: an unknown operation on qubits is copied without the controls and without an error.
* **Constants for pytket (C93).** `const_to_pytket` returns as soon as it meets a bool (as a sum) inside a tuple, so that of the constant `(true, false)`, whose type has two
  bits, one bit is encoded, and what was encoded before it is dropped. The queue visits nested tuples last, so that `((x, y), z)` is encoded as `z, x, y`.
* (C94) Emitters for all extensions come last for operations, but in their turn for constants.
* **Circuits put back in place (C96).** `rewire_external_subgraph_outputs` disconnects an output port that has registers from all its targets, also from those in
  the same subgraph: if an unsupported operation gives a bool to another one of its group and to the output of the region, the link between the two is lost
  (`C96_shared_refuted`). An angle that one subgraph gives to another is connected a second time, since the old link is not taken away (`C96_params_refuted`).
  Only links from the input node to nested regions are carried over, so that a value of an encoded operation used inside an unsupported container is lost,
  and so are order edges from encoded operations (`C96_nonlocal_refuted`).
* **Arrays of results (C98).** `result_array_int` and `result_array_uint` take integers of all widths, but the elements are always given to the runtime as `i64`: arrays of
  `int<0>` to `int<5>` are read beyond their end (`C98_narrow_refuted`), or elements are mixed (`C98_narrow_values_refuted`). No check of the width exists. The space for the
  structure, the mask and (stack lowering) the copy of the array is reserved where the operation stands, not in the entry block: in a loop the stack grows without bound
  (`C98_stack_refuted`). Arrays on the heap are consumed by the operation and never freed (C98_printed_partial: the memory is unchanged; the code has a TODO).
* **Arguments of results (C97).** `instantiate` does not check its arguments: `result_bool` with a number gives `result_array_bool`, and widths are taken modulo 256
  (`C97_unchecked_refuted`). hugr checks arguments against the parameters first.
* **Entry points (C99).** If the entry point is a module, a `main` with inputs is accepted and called without arguments (`C99_inputs_refuted`); for function entry points
  this is checked. The LLVM module is optimised before it is verified. If a pass fails, `QSystemPass::run` leaves the entry point at the module (`C99_failure_refuted`).
* **Order of operations (C100).** The comment says that allocations are pushed as late as possible, but their rank is below that of classical operations: n qubits that are
  turned by a loaded angle are all allocated before the angle is loaded, although one qubit at a time would do (`C100_late_refuted`).
* **Functions in packages (C101).** Children that are not functions have the empty name: they are in the list of available functions (`C101_listed_refuted`), and a search
  for the empty name finds them (`C101_empty_refuted`). A generic function hides circuits of the same name in later modules (`C101_parametric_refuted`).
* **Compute types (C102).** Types called "module" or "context" are accepted with any arguments and bound (`C102_unchecked_refuted`). (read) The comment at `call` says that
  the context is returned beside the result; the signature returns the result only, and the context comes back from `read_result`.
* **Traces of rewrites (C103).** `CircuitRewrite::apply` registers the rewrite before it is applied: one that fails is in the trace (`C103_failed_refuted`). The count of composed
  rewrites is a u16: 65536 are traced as none, or panic in a debug build (`C103_wrapped_refuted`). Larger numbers in the metadata are cut, other values panic, and other metadata under
  the key makes enabling do nothing (`C103_metadata_refuted`).
* **Calls into TKET1 (C104).** If the text that TKET1 writes cannot be read, `to_serial_circuit` returns before it frees the string (`C104_leak_refuted`).
* **Blocks to dataflow graphs (C105).** In code that is marked as unused: the parent gets as many output ports as it has inputs (`C105_ports_refuted`), two order edges to the output
  node make it panic (`C105_order_refuted`), and a tag that is used elsewhere is removed all the same (`C105_shared_refuted`).
* **Drops of qubits (C106).** `tket.guppy.drop` is described as for affine types only, but its parameter is any type, so arrays of qubits can be dropped as far as the
  declaration goes (`C106_drop_refuted`). Whether the lowering of drops then reports an error is up to hugr's linearizer, which is not modelled here. The comment on `RandomFloat` says f32 where the signature has a 64-bit float (`C106_float_refuted`).
* **Test of a normalization that does nothing (C107).** `test_guppy_pass_noop` says that all options are off, but leaves the squashing of borrows on (`C107_noop`). The error
  variant `NormalizeGuppyErrors::Inline` is never made by `run`.
* (read) `Circuit::num_operations` counts from the module root; `replace_bools` documents that
  `TketOp::Measure` is replaced, which it is not.

## Wrong-program experiments

`seeded/LOG.jsonl` has one line per experiment: a realistic bug put into a scratch copy of the model, the
theorems that then failed, and the theorems that were tightened because they did not.
