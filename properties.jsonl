{"id": "C01", "title": "Guard application means the guard", "statement": "Applying a guard or invariant to a zone either reports an error or yields exactly the clock valuations of the zone that satisfy the guard read as ordinary arithmetic and logic over the declared clocks and integer variables.", "quantifier": "every boolean expression, every declaration table, every zone and every clock valuation", "why_tests_cant": "guards are an unbounded syntax and zones are infinite sets; the repository's own tests pin one wrong result (10-(9-x)) as expected", "anchors": ["src/EdgeEval/constraint_applyer.rs: apply_constraints_to_state, get_indices, replace_vars, get_clock_val, combine_clocks", "src/ModelObjects/Expressions/arith_expression.rs: simplify, move_clock_and_vars, simplify_helper"]}
{"id": "C02", "title": "Simplifying an arithmetic expression preserves its value", "statement": "The simplified form of an arithmetic expression has the same value as the original under every assignment of the clocks and variables, or simplification reports an error.", "quantifier": "every arithmetic expression and every valuation", "why_tests_cant": "the expression space is unbounded and the bug only shows for particular nestings", "anchors": ["src/ModelObjects/Expressions/arith_expression.rs: simplify, move_clock_and_vars, clone_expr, simplify_helper"]}
{"id": "C03", "title": "Forward update is the image under the assignments", "statement": "Applying an edge's updates to a zone yields exactly the valuations obtained by executing the assignments in order from some valuation of the zone, whatever the number of updates and repeated targets.", "quantifier": "every update list, every zone, every valuation", "why_tests_cant": "zones are infinite sets and update lists unbounded", "anchors": ["src/EdgeEval/updater.rs: CompiledUpdate::apply", "src/ModelObjects/transition.rs: apply_updates"]}
{"id": "C04", "title": "Backward update is the weakest precondition of the assignments", "statement": "Applying a transition's updates backwards to a set of valuations yields exactly the valuations from which executing the assignments ends inside the set.", "quantifier": "every update list, every zone, every valuation", "why_tests_cant": "the failure needs two conflicting assignments to one clock; tests use single resets", "anchors": ["src/EdgeEval/updater.rs: apply_as_guard, apply_as_free", "src/ModelObjects/transition.rs: inverse_apply_updates"]}
{"id": "C05", "title": "Allowed federation is exactly the set of valuations that may fire", "statement": "The federation a transition reports as allowed contains a valuation exactly when the valuation satisfies the guard and executing the updates lands inside the target location's invariant.", "quantifier": "every transition whose updates do not assign one clock two different constants, every valuation", "why_tests_cant": "infinite valuations, unbounded updates and invariants", "anchors": ["src/ModelObjects/transition.rs: get_allowed_federation, inverse_apply_updates", "src/TransitionSystems/location_tree.rs: apply_invariants"]}
{"id": "C06", "title": "Taking a transition computes the exact timed successor set", "statement": "Taking a transition from a symbolic state succeeds exactly when some valuation of the state can fire it and then reach, by letting time pass, the target invariant; on success the new zone is exactly the set of valuations reached by firing and delaying, restricted to the target invariant, and the new location is the target.", "quantifier": "every symbolic state, every transition, every valuation", "why_tests_cant": "zones are infinite sets", "anchors": ["src/ModelObjects/transition.rs: use_transition, apply_guards, apply_updates, move_locations"]}
{"id": "C07", "title": "Conjunction steps are joint steps", "statement": "Under a conjunction the transitions for an action from a location pair are exactly the pairs of component transitions for the action: a valuation enables the joint transition iff it enables both, its effect is both update lists, and its target is the pair of targets.", "quantifier": "every pair of systems, location pair, action and valuation", "why_tests_cant": "nesting of systems and transition lists are unbounded", "anchors": ["src/TransitionSystems/conjunction.rs: next_transitions", "src/ModelObjects/transition.rs: combinations", "src/TransitionSystems/location_tree.rs: compose"]}
{"id": "C08", "title": "Parallel composition synchronises shared actions and interleaves private ones", "statement": "Under composition an action known to both sides is taken jointly, an action known to one side is taken by that side while the other side stays in place with no guard and no update; no other transitions exist and no declared action hits the unreachable branch.", "quantifier": "every pair of systems, location pair, action and valuation", "why_tests_cant": "unbounded nesting", "anchors": ["src/TransitionSystems/composition.rs: new_ts, next_transitions", "src/ModelObjects/transition.rs: without_id, combinations"]}
{"id": "C09", "title": "Action alphabets of composed systems", "statement": "Composition is accepted only if outputs are disjoint; its outputs are the union, its inputs are the inputs not matched by the other side's outputs, and inputs and outputs stay disjoint if they were so in the parts. Conjunction is accepted only if no side's inputs meet the other's outputs; alphabets are the intersections. Every nested system built by the tool has disjoint inputs and outputs.", "quantifier": "every system expression and every component alphabet", "why_tests_cant": "system expressions nest without bound", "anchors": ["src/TransitionSystems/composition.rs: new_ts", "src/TransitionSystems/conjunction.rs: new_ts", "src/TransitionSystems/quotient.rs: new_ts"]}
{"id": "C10", "title": "Quotient transitions follow the quotient rules", "statement": "For a quotient T \\\\ S, a pair of locations offers an action at a valuation exactly as the quotient rules say: actions known to both are taken jointly exactly where both can take them, actions known to one side alone are taken by that side, where S's invariant fails or S cannot produce one of its outputs the quotient goes to the universal location, where S can produce an output that T (also as an output) cannot the quotient goes to the inconsistent location, and the new input leads to the inconsistent location where T's invariant fails while S's holds. The universal location offers every action without condition; the inconsistent location offers exactly the inputs, and only while the quotient clock is zero; both only loop.", "quantifier": "every pair of systems, location pair, action and valuation", "why_tests_cant": "ten interacting rules over infinite zones", "anchors": ["src/TransitionSystems/quotient.rs: new_ts, next_transitions, get_all_locations"]}
{"id": "C11", "title": "A reported reachability path is a real run", "statement": "When a reachability query answers with a path, executing the listed transitions one after the other from the start state is possible in the concrete timed semantics and ends in a state matching the target, for some choice of delays, provided zones are not over-approximated.", "quantifier": "every system, start state, target state, exploration order", "why_tests_cant": "the state space is infinite and the exploration order nondeterministic", "anchors": ["src/System/reachability.rs: find_path, reachability_search, take_transition, make_path"]}
{"id": "C12", "title": "An 'unreachable' answer is never wrong", "statement": "When a reachability query answers that no path exists, no concrete run of the system from the start state ever enters the target, whatever the extrapolation does as long as it only enlarges zones.", "quantifier": "every system, start state, target, exploration order, run length and every extensive extrapolation", "why_tests_cant": "quantifies over all runs of an infinite-state system", "anchors": ["src/System/reachability.rs: find_path, is_trivially_unreachable, reachability_search, take_transition"]}
{"id": "C13", "title": "A positive refinement answer is backed by a refinement relation", "statement": "When the refinement check succeeds, there is a relation between concrete timed states containing the initial pair in which every output and delay of the left is matched by the right and every input of the right is matched by the left.", "quantifier": "every pair of systems, every action iteration order, every extensive extrapolation", "why_tests_cant": "infinite state spaces and unbounded exploration", "anchors": ["src/System/refine.rs: check_refinement, has_valid_state_pairs, build_state_pair, prepare_init_state"]}
{"id": "C14", "title": "A negative refinement answer is justified", "statement": "When exploration is exact and the refinement check reports that an action cannot be matched, there is a reachable pair of concrete states that violates the matching requirement.", "quantifier": "every pair of systems and action iteration order, extrapolation exact", "why_tests_cant": "infinite state spaces", "anchors": ["src/System/refine.rs: check_refinement, has_valid_state_pairs, build_state_pair"]}
{"id": "C15", "title": "Refinement preconditions", "statement": "The refinement check only explores systems whose alphabets satisfy: left inputs disjoint from right outputs, right inputs disjoint from left outputs, left inputs contained in right inputs and right outputs contained in left outputs; otherwise it fails with an action mismatch. Missing actions are treated as self-loops that change nothing.", "quantifier": "every pair of alphabets", "why_tests_cant": "alphabets are arbitrary sets", "anchors": ["src/System/refine.rs: check_preconditions, common_actions, extra_actions"]}
{"id": "C16", "title": "A positive determinism answer holds in every reachable state", "statement": "When the determinism check succeeds, in every state reachable by any concrete run no two different transitions with the same action are enabled together.", "quantifier": "every system, run, action, iteration order and extensive extrapolation", "why_tests_cant": "all runs of an infinite-state system", "anchors": ["src/System/local_consistency.rs: check_determinism, is_deterministic, is_deterministic_helper"]}
{"id": "C17", "title": "A negative determinism answer is justified", "statement": "When the determinism check fails and exploration is exact, some concretely reachable state enables two transitions with the reported action.", "quantifier": "every system and iteration order", "why_tests_cant": "all runs of an infinite-state system", "anchors": ["src/System/local_consistency.rs: is_deterministic_helper"]}
{"id": "C18", "title": "A positive least-consistency answer means the environment can be survived", "statement": "When the least consistency check succeeds, the system has a strategy that keeps every state reached under any inputs consistent: time can pass forever or some output leads on to a consistent state.", "quantifier": "every system, exploration order and run", "why_tests_cant": "strategies range over infinite plays; the bug needs a state revisited after its branch failed", "anchors": ["src/System/local_consistency.rs: is_least_consistent, consistency_least_helper"]}
{"id": "C19", "title": "A positive full-consistency answer holds in every reachable state", "statement": "When the full consistency check succeeds, every symbolic state reached by inputs and outputs either can delay forever or offers an output.", "quantifier": "every system, exploration order and run", "why_tests_cant": "all runs of an infinite-state system", "anchors": ["src/System/local_consistency.rs: is_fully_consistent, consistency_fully_helper"]}
{"id": "C20", "title": "Input enabling is complete and adds no nondeterminism", "statement": "After input enabling, in every location, for every declared input and every valuation in the location's invariant, some input edge is enabled; every added edge is a self-loop without updates enabled only where no original edge could fire.", "quantifier": "every component, location, input and valuation", "why_tests_cant": "complement of infinite sets", "anchors": ["src/System/input_enabler.rs: make_input_enabled"]}
{"id": "C21", "title": "Waiting and passed lists never lose or invent states", "statement": "A pair put on the waiting list is popped exactly once unless already covered; the list claims to contain a pair only if an equal-location pair with a containing zone is queued; the passed list claims containment only if the zone is covered by zones that were put before.", "quantifier": "every sequence of put, pop and has operations", "why_tests_cant": "unbounded operation histories", "anchors": ["src/DataTypes/statepair_list.rs: DepthFirstWaitingStateList, PassedStateListFed, PassedStateListVec"]}
{"id": "C22", "title": "Zones survive conversion to guard expressions and back", "statement": "Converting a federation to a boolean expression over clock names and applying the expression to the universe gives the same federation; the special cases true and false are kept apart.", "quantifier": "every federation over every injectively named set of clocks", "why_tests_cant": "infinite sets, unbounded disjunctions", "anchors": ["src/ModelObjects/Expressions/bool_expression.rs: from_disjunction, from_conjunction, from_constraint", "src/EdgeEval/constraint_applyer.rs"]}
{"id": "C23", "title": "Saved guards reload with the same meaning", "statement": "Encoding a guard to text for a saved component and parsing that text back yields a guard with the same meaning.", "quantifier": "every boolean expression", "why_tests_cant": "unbounded syntax; operator nesting", "anchors": ["src/ModelObjects/Expressions/bool_expression.rs: encode_expr", "src/ModelObjects/Expressions/arith_expression.rs: encode_expr", "src/DataReader/parse_edge.rs", "src/DataReader/grammars/edge_grammar.pest"]}
{"id": "C24", "title": "Printed queries parse back to themselves", "statement": "Parsing the printed form of a system expression gives back the expression with its structure (precedence and associativity) intact.", "quantifier": "every system expression", "why_tests_cant": "unbounded nesting", "anchors": ["src/DataReader/parse_queries.rs", "src/ModelObjects/Expressions/query_expression.rs", "src/DataReader/grammars/query_grammar.pest"]}
{"id": "C25", "title": "Model cache returns the user's own latest model", "statement": "A cache lookup by user and hash returns a model only if that user's most recent insertion carried that hash and was not evicted, and returns exactly that model; lookups never see another user's model; hash zero is never served; the number of cached users never exceeds the capacity and eviction removes the least recently used user.", "quantifier": "every sequence of lookups and insertions by every set of users, and every interleaving of concurrent requests", "why_tests_cant": "unbounded histories and schedules", "anchors": ["src/DataReader/component_loader.rs: ModelCache", "src/ProtobufServer/ecdar_requests/request_util.rs: get_or_insert_model"]}
{"id": "C26", "title": "User tokens are unique", "statement": "Any two token requests receive different user ids, under any interleaving, as long as fewer than 2^32 tokens were handed out; after that ids repeat.", "quantifier": "every number and interleaving of token requests", "why_tests_cant": "2^32 requests cannot be tested", "anchors": ["src/ProtobufServer/ecdar_backend.rs: get_user_token"]}
{"id": "C27", "title": "Clocks merged by clock reduction are equal in every run", "statement": "Two clocks placed in the same equivalence group by the redundancy analysis have equal values in every state of every run of the system.", "quantifier": "every system, every run", "why_tests_cant": "all runs", "anchors": ["src/TransitionSystems/transition_system.rs: find_equivalent_clock_groups, find_edges_and_nodes"]}
{"id": "C28", "title": "Clocks removed as unused influence nothing", "statement": "A clock reported as unused by the redundancy analysis is not read by any guard or invariant of any location or edge of the explored system.", "quantifier": "every system", "why_tests_cant": "unbounded models", "anchors": ["src/TransitionSystems/transition_system.rs: find_used_clocks, find_clock_redundancies", "src/ModelObjects/component.rs: remove_clock"]}
{"id": "C29", "title": "Clock indices are disjoint and dense", "statement": "Building a system from a query assigns every component instance its own contiguous block of clock indices, no two instances share an index, all quotients of the query share one extra clock, and every index is below the dimension; compressing after reduction yields again exactly the indices 1..dim-1.", "quantifier": "every query expression and component set", "why_tests_cant": "unbounded queries and declarations", "anchors": ["src/System/extract_system_rep.rs: get_system_recipe, SystemRecipe, compress_component_decls, clock_reduce", "src/ModelObjects/component.rs: set_clock_indices"]}
{"id": "C30", "title": "Locations and zones survive the wire format", "statement": "Converting a location or a zone to its protobuf form and back gives the same location and the same zone, so a simulation step continues from exactly the state the client was shown.", "quantifier": "every location tree and every federation", "why_tests_cant": "unbounded trees and infinite sets", "anchors": ["src/ProtobufServer/proto_conversions.rs", "src/DataReader/proto_reader.rs: proto_state_to_state, proto_zone_to_owned_federation", "src/System/specifics.rs"]}
{"id": "C31", "title": "A saved composite behaves like the composite", "statement": "The component produced by saving a system has, for every location of the system, the same transitions with the same guards, updates, targets and the same invariant.", "quantifier": "every system, location, action and valuation", "why_tests_cant": "unbounded systems", "anchors": ["src/System/save_component.rs: combine_components, collect_edges_from_location, get_locations_from_trees, get_clock_map"]}
{"id": "C32", "title": "Clock names stay distinct when saving", "statement": "When a composite is saved every clock of every part gets its own name, so that no clock is lost or confused with another.", "quantifier": "every list of declarations and every iteration order", "why_tests_cant": "collisions need adversarial names and hash orders", "anchors": ["src/System/save_component.rs: get_clock_map"]}
{"id": "C33", "title": "Maximum bounds dominate every constant a clock is compared with", "statement": "The bound reported for a clock is at least every constant the clock is compared with in a guard or invariant.", "quantifier": "every component, clock, guard and invariant", "why_tests_cant": "unbounded syntax", "anchors": ["src/ModelObjects/component.rs: get_max_bounds", "src/ModelObjects/Expressions/bool_expression.rs: get_max_constant", "src/ModelObjects/Expressions/arith_expression.rs: get_constant"]}
{"id": "C34", "title": "Partial location matching is a faithful wildcard match", "statement": "Comparing a location with a partial location answers true exactly when they have the same shape and every non-wildcard leaf is the same location; it is symmetric, and every location matches itself.", "quantifier": "every pair of location trees", "why_tests_cant": "unbounded trees", "anchors": ["src/TransitionSystems/location_tree.rs: compare_partial_locations", "src/TransitionSystems/location_id.rs"]}
{"id": "C35", "title": "Transition identifiers list the edge of every component", "statement": "Extracting the leaves of a transition identifier gives, for every component of the system in order, exactly the component's edges taken, and never aborts.", "quantifier": "every transition identifier and system shape", "why_tests_cant": "unbounded trees", "anchors": ["src/TransitionSystems/transition_id.rs: get_leaves, split_into_component_lists"]}
{"id": "C36", "title": "Every simulation decision offered can be taken", "statement": "Each decision offered by the simulator from a state can be resolved without an internal error, and its resulting states are exactly those reachable by taking the offered action from the offered subset of the state.", "quantifier": "every system, state, action and transition", "why_tests_cant": "infinite zones", "anchors": ["src/Simulation/decision.rs: resolve, from_state_transition, get_decisions_from_state"]}
{"id": "C37", "title": "Pruning removes nothing a client could use", "statement": "Pruning a composite system leaves every consistent location and every transition between consistent locations in place.", "quantifier": "every component and every set of inconsistent locations", "why_tests_cant": "unbounded models", "anchors": ["src/System/pruning.rs: prune, prune_system, is_immediately_inconsistent", "src/System/save_component.rs: combine_components"]}
{"id": "C38", "title": "Declarations survive saving", "statement": "Writing a declaration table to text and reading it back gives a table with the same clock names.", "quantifier": "every declaration table and iteration order", "why_tests_cant": "unbounded texts", "anchors": ["src/DataReader/serialization.rs: decode_declarations, encode_declarations"]}
{"id": "C39", "title": "Location identifiers identify locations", "statement": "Two different locations of one system never have the same textual identifier, so graph nodes, saved locations and matching by id never merge different locations.", "quantifier": "every system and pair of locations", "why_tests_cant": "names are arbitrary strings", "anchors": ["src/TransitionSystems/location_id.rs: get_unique_string, Display"]}
{"id": "C40", "title": "Query states are decoded to the locations and zone they name", "statement": "A state expression in a reachability query is turned into the location tree that names exactly the given location for each component (wildcard where none is given) and the zone cut by exactly the given clock constraints, or an error is reported.", "quantifier": "every state expression and system", "why_tests_cant": "unbounded expressions", "anchors": ["src/System/extract_state.rs: get_state, get_locations, construct_location_tree"]}
{"id": "C41", "title": "System declarations are read faithfully", "statement": "Reading the system declaration text records exactly the listed components and, for each, exactly the listed inputs and outputs in order, for every IO line that is accepted.", "quantifier": "every list of component names and IO lines", "why_tests_cant": "unbounded texts", "anchors": ["src/ModelObjects/system_declarations.rs: decode_sync_type"]}
{"id": "C42", "title": "Request handling answers every request and panics stay contained", "statement": "A query request that panics is answered with an internal error and leaves the cache usable for all later requests.", "quantifier": "every history of requests, some of which panic", "why_tests_cant": "unbounded histories, failure points", "anchors": ["src/ProtobufServer/ecdar_backend.rs: catch_unwind, send_query", "src/DataReader/component_loader.rs: ModelCache (mutex)"]}
{"id": "C43", "title": "Offered transitions lead to locations of the system and computing them never aborts", "statement": "From every location of a built system and for every action the system declares, computing the offered transitions succeeds and every offered transition leads to a location of the system again; the initial location is one of them. So no exploration of any length hits an internal error while asking for transitions.", "quantifier": "every built system, location and declared action", "why_tests_cant": "unbounded nesting and exploration length", "anchors": ["src/TransitionSystems/transition_system.rs: next_transitions, get_all_locations", "src/TransitionSystems/quotient.rs: next_transitions", "src/TransitionSystems/composition.rs: next_transitions (unreachable!)"]}
{"id": "C44", "title": "Compiling a component keeps its meaning", "statement": "The compiled form of a component has one location per location of the model, with the invariant as written, and in every location offers for every action exactly the edges leaving it with that action; each fires exactly for the clock values satisfying its guard, resets the clocks as written and needs the target's invariant afterwards.", "quantifier": "every component, location, action and pair of clock valuations", "why_tests_cant": "unbounded components and dense time", "anchors": ["src/TransitionSystems/compiled_component.rs: compile_with_actions, next_transitions", "src/TransitionSystems/transition.rs: from_component_and_edge", "src/TransitionSystems/location_tree.rs: simple"]}
{"id": "C45", "title": "Printed queries of every kind parse back to themselves", "statement": "A list of queries printed as text and parsed again gives the same list: the kind of each query, its systems, the start and target states of reachability queries and the name a component is saved under. Texts the grammar accepts never abort the program.", "quantifier": "every list of queries", "why_tests_cant": "unbounded nesting of states, systems and lists", "anchors": ["src/DataReader/parse_queries.rs: parse_to_expression_tree, build_query_from_pair, build_state_from_pair", "src/ModelObjects/Expressions/query_expression.rs: Display", "src/ModelObjects/Expressions/state_expression.rs: Display", "src/DataReader/grammars/query_grammar.pest"]}
{"id": "C46", "title": "Clock reduction does not change the behaviour of a system", "statement": "Removing a clock reported as unused and merging clocks reported as equal leaves every component with the same behaviour: the same edges are enabled after the same delays, up to the removed and renamed clocks.", "quantifier": "every system and every run", "why_tests_cant": "dense time, unbounded models", "anchors": ["src/System/extract_system_rep.rs: clock_reduction", "src/ModelObjects/component.rs: remove_clock, replace_clock", "src/TransitionSystems/transition_system.rs: find_redundant_clocks"]}
{"id": "C47", "title": "A component written to a file and loaded again is the same component", "statement": "Saving a component and loading the file gives a component with the same name, clocks, locations, invariants, edges, guards, updates and actions.", "quantifier": "every component", "why_tests_cant": "unbounded components and expressions", "anchors": ["src/DataReader/serialization.rs: DummyComponent, DummyEdge, DummyLocation, encode_*, decode_*", "src/ModelObjects/component.rs", "src/ModelObjects/edge.rs", "src/ModelObjects/location.rs", "src/DataReader/json_writer.rs: component_to_json_file"]}
{"id": "C48", "title": "Pruning leaves no way into an inconsistent location", "statement": "After a component or system has been pruned, no run of the result enters a location that was declared inconsistent.", "quantifier": "every component, every system, every run of the pruned result", "why_tests_cant": "all runs, unbounded models", "anchors": ["src/System/pruning.rs: prune, prune_system, handle_output, is_immediately_inconsistent", "src/System/save_component.rs: combine_components, get_locations_from_trees"]}
{"id": "C49", "title": "A query is accepted exactly when its systems may be combined", "statement": "Building the system of a query accepts a composition exactly when its operands are accepted and share no output, a conjunction exactly when its operands are accepted, no action is an input of one and an output of the other, and the conjunction passes the consistency check, and a quotient exactly when its operands are accepted, no output of the divisor is an input of the dividend, and both operands pass the determinism and consistency checks. Otherwise the query is rejected with an error. So both operands of every quotient in an accepted system, at any depth, are deterministic in every reachable state.", "quantifier": "every system expression over every set of components, every clock numbering, every order of actions and every extrapolation", "why_tests_cant": "Tests combine a handful of components; whether some nesting of operators slips past a check depends on every expression and on every reachable state of its operands.", "anchors": ["src/System/extract_system_rep.rs: SystemRecipe::compile, _compile", "src/TransitionSystems/composition.rs: Composition::new_ts", "src/TransitionSystems/conjunction.rs: Conjunction::new_ts", "src/TransitionSystems/quotient.rs: Quotient::new_ts", "src/TransitionSystems/transition_system.rs: precheck_sys_rep"]}
{"id": "C50", "title": "Answers to queries are about the systems the query names", "statement": "Asking a query, with or without clock reduction, answers about the system its expression names in the loaded project: a satisfied refinement means the left system refines the right one, a refinement reported as failed because a transition cannot be matched or delays are cut means it does not, a satisfied determinism or consistency query means the named system is deterministic (and its components can survive), a saved component behaves as the named system and carries the requested name, unreachable means no reachable state satisfies the target, and a reported path is a run of the named system. In a run over several queries each answer is the one the query gets on its own over the project together with the components earlier queries saved; queries that save nothing do not influence each other, and queries sent to a server never do.", "quantifier": "every query, project, system expression, list of queries, extrapolation and iteration order, with and without clock reduction", "why_tests_cant": "The answer goes through numbering, reduction, compilation and a search; that no combination of them answers about another system depends on all models and all their runs.", "anchors": ["src/System/extract_system_rep.rs: create_executable_query, get_system_recipe, clock_reduction", "src/System/executable_query.rs: execute", "src/main.rs: start_using_cli", "src/DataReader/component_loader.rs: save_component, get_component", "src/ProtobufServer/ecdar_requests/send_query.rs"]}
{"id": "C51", "title": "A model in an XML document is read as it is drawn", "statement": "Loading an XML document gives one component per template, in order, with the name, clocks, locations, invariants, initial location, edges, guards, updates, actions and directions written in the document, and the system declarations list the components and the inputs and outputs of each. This holds with either kind of line ends, in whatever order the labels come and whatever other elements the editor adds. A project file called something.xml is loaded this way, and the edges keep distinct ids.", "quantifier": "every document with any number of templates, locations, edges, labels and declaration lines", "why_tests_cant": "Documents are unbounded trees of text; tests read seven of them.", "anchors": ["src/DataReader/xml_parser.rs: parse_xml, collect_locations, collect_edges, parse_declarations, decode_sync_type, is_xml_project", "src/main.rs: get_project_loader"]}
{"id": "C52", "title": "A loader returns the project's components, and what was saved over them", "statement": "Over every history of look-ups and saves, looking up a component in a JSON project gives the component last saved under that name, and otherwise the component in the file of that name, made to accept its declared inputs in every location; the order and number of look-ups make no difference. Only the files of saved components change, and starting again on the folder gives the same components. An XML project gives the last template of each name, accepting its declared inputs; the server gives the last component of each name that was sent, accepting its own inputs.", "quantifier": "every project folder, every XML document, every list of sent components and every history of look-ups and saves", "why_tests_cant": "Histories of look-ups and saves are unbounded, and caching makes the answer depend on the history in the code.", "anchors": ["src/DataReader/component_loader.rs: JsonProjectLoader, XmlProjectLoader, ComponentContainer, get_component, save_component, parse_components_if_some", "src/DataReader/json_reader.rs: read_json_component", "src/DataReader/json_writer.rs: component_to_json_file", "src/System/extract_system_rep.rs: get_system_recipe"]}
{"id": "C53", "title": "A failed query says what is wrong, and what it says is true", "statement": "The reply to a query is a success exactly when the query is satisfied. When it is not, the reply names the system or component at fault, and what it says holds: a reported non-determinism shows a reached location and an action with two transitions that are possible together; a reported inconsistency shows a state to which inputs lead and which is inconsistent or stuck, or a system without a start; a failed refinement shows a common state that can be reached and an action that cannot be matched or cuts delays, or names the actions that do not fit; a rejected model names the part of the expression and the actions that clash. A reachability query that is satisfied is answered with the steps of a run from a state the query starts in to one it asks for, each with its action, the edges that are taken and the states before and after it. Locations, component instances, clock names and constraints in the message denote the state that was found. Whenever the check ends a reply can be built.", "quantifier": "every query, project, system expression and failure, every iteration order, with and without clock reduction", "why_tests_cant": "Messages are built from states found by unbounded searches over arbitrary systems; tests compare the kind of failure of a few fixed models.", "anchors": ["src/System/query_failures.rs", "src/System/specifics.rs", "src/ProtobufServer/proto_conversions.rs", "src/System/local_consistency.rs", "src/System/refine.rs", "src/System/executable_query.rs: QueryResult", "src/TransitionSystems/transition_system.rs: precheck_sys_rep"]}
{"id": "C54", "title": "Every check ends", "statement": "Every determinism, consistency, refinement and reachability check, every analysis of the clocks of a system and every saving of a system comes to an end, and so does every query built from them and every command line of queries. Checks for determinism, consistency and refinement end with an answer: they never abort. The answer does not depend on how long the tool is allowed to run.", "quantifier": "every system of components, compositions, conjunctions and quotients, every query and list of queries, every order in which hash sets are listed, every extrapolation that leaves finitely many zones per location", "why_tests_cant": "A test that ends says nothing about the next model; non-termination shows only for models whose zones keep growing.", "anchors": ["src/System/local_consistency.rs", "src/System/refine.rs: check_refinement", "src/System/reachability.rs: find_path, search_algorithm", "src/DataTypes/statepair_list.rs", "src/System/save_component.rs", "src/TransitionSystems/transition_system.rs: find_redundant_clocks, ClockAnalysisGraph", "src/System/executable_query.rs", "src/main.rs: start_using_cli"]}
{"id": "C55", "title": "The command line prints one true line per query and changes only the files of created components", "statement": "Running the program on a project with a text of queries prints, if it does not abort, exactly one line for each query, in order: that the property is satisfied, that it is not, or that the component was created, as the query is answered on the components of the project and those created by earlier queries of the same text. It prints something exactly if the text is a list of queries, the project can be opened and every query is answered. Afterwards the files of created components hold them and every other file is unchanged. If it says that a refinement, determinism or consistency is satisfied, or that a target is reachable, this is true of the systems the query names in the files of the project, and if it says that one is not, this is not so.", "quantifier": "every text of queries, every project folder or document, every choice of options, every number of queries", "why_tests_cant": "Texts, projects and numbers of queries are unbounded, and each answer rests on an unbounded search.", "anchors": ["src/main.rs: main, start_using_cli, parse_args, get_project_loader", "src/cli.rs: Args, query_check", "src/ModelObjects/queries.rs: decode_query", "src/DataReader/json_reader.rs: read_queries, read_system_declarations", "src/DataReader/component_loader.rs: JsonProjectLoader::new_loader, XmlProjectLoader::new_loader", "src/System/executable_query.rs: print_result"]}
{"id": "C56", "title": "A created component can be drawn and saved", "statement": "Whatever get-component or prune query creates a component, its edges lead from and to its own locations, so drawing it does not abort and it is written to its file. In the drawing every location and every label of an edge has a place inside the frame of the component, the frame is centred and its sides have a ratio within the limit, and what the simulation of forces puts to the left or above stays there.", "quantifier": "every query and project, every component, every result of the simulation, every configuration", "why_tests_cant": "Components and their drawings are unbounded and the simulation starts at random places.", "anchors": ["src/Simulation/graph_layout.rs: layout_dummy_component, Config", "src/DataReader/serialization.rs: DummyComponent, DummyEdge, DummyNail", "src/DataReader/json_writer.rs: component_to_json_file, component_to_json", "src/System/save_component.rs: combine_components"]}
{"id": "C57", "title": "A conjunction is the greatest specification below its operands", "statement": "The conjunction of two specifications that never refuse an input refines both of them, and every deterministic specification that refines both refines the conjunction. So with the same actions, to refine A && B is to refine A and to refine B.", "quantifier": "every three systems of components, compositions, conjunctions and quotients with clocks of their own", "why_tests_cant": "Refinement is about all runs of unboundedly many systems; tests compare a few fixed models.", "anchors": ["src/TransitionSystems/conjunction.rs: Conjunction::new_ts, next_transitions", "src/System/refine.rs: check_refinement"]}
{"id": "C58", "title": "A part of a composition can be replaced by a refinement of it", "statement": "If A1 refines A2 and B1 refines B2, where A1 and B1 are deterministic and A2 and B2 never refuse an input, then A1 || B1 refines A2 || B2.", "quantifier": "every four systems of components, compositions, conjunctions and quotients with clocks of their own, whose additional outputs the others do not use", "why_tests_cant": "Stepwise development relies on it for systems no test contains.", "anchors": ["src/TransitionSystems/composition.rs: Composition::new_ts, next_transitions", "src/System/refine.rs: check_refinement"]}
{"id": "C59", "title": "A quotient is the weakest specification of the missing part", "statement": "If X refines the quotient T \\\\ S then S || X refines T, and if S || X refines T then X refines the quotient, for deterministic specifications of which S and, for the second, X never refuse an input, and of which, for the first, X can always wait or send.", "quantifier": "every specification T, every part S and every component X with clocks of their own", "why_tests_cant": "The quotient is asked for before any X exists; the property ranges over all of them.", "anchors": ["src/TransitionSystems/quotient.rs: Quotient::new_ts, next_transitions", "src/TransitionSystems/composition.rs", "src/System/refine.rs: check_refinement"]}
{"id": "C60", "title": "The order and grouping of the operands of && and || do not matter", "statement": "A && B and B && A refine each other, and so do A || B and B || A, (A && B) && C and A && (B && C), (A || B) || C and A || (B || C).", "quantifier": "every three systems of components, compositions, conjunctions and quotients with clocks of their own", "why_tests_cant": "Users write expressions in any order; tests contain few permutations of few models.", "anchors": ["src/TransitionSystems/conjunction.rs: Conjunction", "src/TransitionSystems/composition.rs: Composition"]}
{"id": "C61", "title": "An expression means the same wherever it stands", "statement": "The system an expression names when it is checked alone, on the left of a refinement and on the right of one behaves the same, whatever the other side is and however its clocks are numbered; so whether one expression refines another depends on the two expressions and the named components only.", "quantifier": "every two expressions and every project whose components load", "why_tests_cant": "Clock numbers depend on everything that precedes an expression in a query; tests fix a few queries.", "anchors": ["src/System/extract_system_rep.rs: create_executable_query, get_system_recipe, SystemRecipe::compile", "src/ModelObjects/component.rs: set_clock_indices"]}
{"id": "C62", "title": "Answers to different queries fit together", "statement": "The laws of refinement hold between the systems that different queries name: E <= E; E <= F and F <= G give E <= G; X <= A && B exactly if X <= A and X <= B; A1 <= A2 and B1 <= B2 give A1 || B1 <= A2 || B2; X <= T \\\\ S exactly if S || X <= T; order and grouping do not matter. So, for queries whose answers are right (C50), no query is denied with a behaviour although the answers to others imply it.", "quantifier": "every expressions and projects, every order in which hash sets are iterated over, every extrapolation in each of the queries", "why_tests_cant": "Each answer comes from a separate unbounded search over separately numbered clocks.", "anchors": ["src/System/executable_query.rs: RefinementExecutor::execute", "src/System/refine.rs: check_refinement", "src/System/extract_system_rep.rs: create_executable_query", "src/TransitionSystems/*"]}
{"id": "C63", "title": "A created component can stand for the expression it was made of", "statement": "If get-component E save-as M is answered with a component, then afterwards M names a component that loads, has the inputs and outputs of E, starts if E does, and refines and is refined by exactly what E refines and is refined by; E and M refine each other. So no query about M is denied with a behaviour although the same query about E is satisfied, or the other way round. This is for expressions all of whose actions can happen, with at most one quotient and clock names that stay apart: an action that never happens is not in M. What other expressions mean does not change.", "quantifier": "every expression, project and name, every order in which hash sets are iterated over, with and without removal of clocks, every other expression on either side of a refinement", "why_tests_cant": "The component and the queries asked about it afterwards are unbounded; tests create a few components and never ask about them again.", "anchors": ["src/System/save_component.rs: combine_components", "src/System/executable_query.rs: GetComponentExecutor::execute", "src/DataReader/component_loader.rs: save_component", "src/System/extract_system_rep.rs: get_system_recipe", "src/System/refine.rs: check_refinement"]}
{"id": "C64", "title": "A created component can be used inside larger expressions", "statement": "Replacing, anywhere inside a larger expression, a part E by the component M that get-component made of E gives a system that has the same inputs and outputs and that, state by state, can wait and act like the original one: so every refinement between expressions that contain E holds exactly if it holds with M in the place of E, and no such query is denied with a behaviour although the other is satisfied. More generally, systems that cannot be told apart cannot be told apart as operands of &&, || and \\\\. (For expressions in which no two operands of an operator both contain quotients, which would share a clock.)", "quantifier": "every expression around E, on both sides of a refinement, every project, every order in which hash sets are iterated over", "why_tests_cant": "The surrounding expressions and their clock numbers are unbounded; refinement both ways alone would not imply it, because quotients look at what an operand cannot do.", "anchors": ["src/TransitionSystems/conjunction.rs: next_transitions", "src/TransitionSystems/composition.rs: next_transitions", "src/TransitionSystems/quotient.rs: next_transitions", "src/System/save_component.rs: combine_components", "src/System/extract_system_rep.rs: get_system_recipe"]}
{"id": "C65", "title": "Operands can be reordered and regrouped anywhere in an expression", "statement": "If an expression is obtained from another by changing the order or the grouping of operands of && and ||, at any depth and any number of times, below other operators and quotients too, the two name systems that cannot be told apart; so a refinement holds exactly if it holds with both sides rearranged, and no rearranged query is denied with a behaviour although the original one is satisfied.", "quantifier": "every two expressions, one a rearrangement of the other by steps through legal expressions, and every project whose components load", "why_tests_cant": "The number of rearrangements grows with the factorial of the number of operands; each numbers clocks and names locations differently.", "anchors": ["src/TransitionSystems/conjunction.rs: Conjunction", "src/TransitionSystems/composition.rs: Composition", "src/TransitionSystems/quotient.rs: Quotient", "src/System/extract_system_rep.rs: get_system_recipe, SystemRecipe::compile"]}
{"id": "C66", "title": "Clients of the server are answered about the components they sent", "statement": "Whatever other clients do meanwhile, a query that is answered is answered with its own number and about the components sent with it (under each name the last one, accepting its inputs everywhere): refinement is confirmed only if it holds and denied only with a reason that is one, determinism and consistency are confirmed only if they hold and denied only with a reason that is one, and a reachable state is shown with the steps of a run to it. A client that starts a simulation and keeps sending back decisions it was offered is always shown a state the system can reach with exactly the steps possible in it, and is never told that an offered decision cannot be taken. Every request is answered, if its handling ends; a server with an empty cache does not start.", "quantifier": "every sequence of requests and schedule of handlers, every set of components as JSON or XML, every order in which hash sets are iterated over in each request", "why_tests_cant": "Requests interleave, simulations have any length, and each request rebuilds the system with other hash seeds.", "anchors": ["src/ProtobufServer/ecdar_backend.rs: handle_request", "src/ProtobufServer/server.rs: start_grpc_server_with_tokio", "src/ProtobufServer/ecdar_requests/send_query.rs: handle_send_query", "src/ProtobufServer/ecdar_requests/simulation_requests.rs: handle_simulation_start, handle_simulation_step", "src/ProtobufServer/ecdar_requests/request_util.rs", "src/DataReader/component_loader.rs: parse_components_if_some"]}
{"id": "C67", "title": "A command that is interrupted leaves all other components as they were", "statement": "A command on a JSON project that is killed or panics at any point leaves in the folder, apart from at most one file, exactly the files of the components before and of those made by the queries that were done; the one file is the one the next component is being written to, and until it is made anew it cannot be used. A later command that does not ask about that component before making it again prints what it would have if nothing had happened. A component that is being replaced can be lost, and a command that panics and prints nothing keeps what it made before.", "quantifier": "every command line, every project, every point of the run between writes", "why_tests_cant": "Every query and every write adds points at which the run can end.", "anchors": ["src/main.rs: start_using_cli", "src/DataReader/json_writer.rs: component_to_json_file", "src/DataReader/component_loader.rs: save_component, load_component", "src/DataReader/json_reader.rs: read_json_component"]}
{"id": "C68", "title": "A created component keeps its meaning in later commands and requests", "statement": "If get-component: E save-as N is answered, a later command on the same project finds under N the component that was made, and all others as before; a client that sends the JSON it was answered with back to the server has the same. Every expression then means what it meant when N was made, N can be exchanged for E inside every expression and on both sides of a refinement, and what a later command prints as satisfied about N holds of E in the project as it was. Making it accept inputs it already accepts does not change it.", "quantifier": "every project, every expression the component is made of and used in, every later command or request and every order in which hash sets are iterated over in them", "why_tests_cant": "The way through the file numbers the clocks anew and prints and parses every guard; expressions around the component are unbounded.", "anchors": ["src/DataReader/component_loader.rs: save_component, load_component, From<Vec<Component>> for ComponentContainer", "src/DataReader/json_writer.rs: component_to_json_file", "src/DataReader/serialization.rs: encode_opt_boolexpr, decode_guard", "src/System/save_component.rs: combine_components", "src/System/input_enabler.rs: make_input_enabled", "src/main.rs: start_using_cli"]}
{"id": "C69", "title": "What the command line prints below a verdict is true", "statement": "The lines printed for a query begin with its verdict. Below a refinement that is not satisfied stands one sentence that names the two systems as they were written and says why: one of them has no initial state, a part is inconsistent or not deterministic in the location named, the actions named are missing or clash, or the two systems can get together into the two locations named and there the action named cannot be matched or time is cut. Below a state that can be reached stands a line for every step of a run of the system that leads to it, in order, each with its action and the location it is taken in. Other verdicts have no more lines, and making the lines ends no command whose queries are all answered.", "quantifier": "every command line, project and position of a query in it, every order in which hash sets are iterated over, with and without removal of clocks", "why_tests_cant": "Systems, searches and paths are unbounded; tests look at the verdict and never at what is printed below it.", "anchors": ["src/main.rs: start_using_cli", "src/System/executable_query.rs: QueryResult::print_result, print_path", "src/System/query_failures.rs: Display", "src/System/specifics.rs: Display", "src/System/reachability.rs: find_specific_path", "src/System/refine.rs: check_refinement"]}
{"id": "C70", "title": "Asking again for a path gives the same path", "statement": "A reachability query about the same system, start and target is always answered in the same way, with the same path if there is one: the order in which a hash set lists the actions does not show in the answer. Where several paths lead to the target, the actions are tried in alphabetical order.", "quantifier": "every system, start state, target state and way of cutting off clock values, and every order in which the set of actions is listed", "why_tests_cant": "Hash sets are seeded at random; a test run sees one order out of many and systems and searches are unbounded.", "anchors": ["src/System/reachability.rs: reachability_search", "src/TransitionSystems/transition_system.rs: get_actions"]}
{"id": "C71", "title": "A question that is asked again gets the same verdict", "statement": "Asking the same query about the same components again, in another run of the program, gives the same verdict: a refinement, a reachable state, determinism or consistency that was confirmed once is not denied by the next run, although hash sets list actions in another order and clocks may be removed in one run and not in the other.", "quantifier": "every expression, project and state asked for, every two orders in which hash sets are iterated over and every two ways of cutting off clock values", "why_tests_cant": "Hash sets are seeded at random; a test run sees one order out of many, and a test that fails for one order in a thousand is called flaky.", "anchors": ["src/System/local_consistency.rs: consistency_least_helper, is_deterministic_helper", "src/System/refine.rs: check_refinement", "src/System/reachability.rs: find_path", "src/TransitionSystems/transition_system.rs: precheck_sys_rep"]}
{"id": "C72", "title": "Every edge of a component has an identifier of its own", "statement": "In a component that the program creates (get-component, prune) or completes with edges for inputs it does not handle, no two edges have the same identifier, so the identifiers in a path that is shown name one edge each, and the edges shown of a step, each with the component that takes it, tell the step apart from all others from the same locations; a created component has the name asked for and its edges are called E0, E1, and so on.", "quantifier": "every expression, project and choice of a run; every component whose own edges and locations are named apart, every list of inputs; every two steps of a system from one location", "why_tests_cant": "Tests look at a few components, whose names contain no underscores and whose edges were numbered by the editor.", "anchors": ["src/System/input_enabler.rs: make_input_enabled", "src/ModelObjects/component.rs: remake_edge_ids", "src/System/executable_query.rs: GetComponentExecutor", "src/System/save_component.rs: combine_components"]}
