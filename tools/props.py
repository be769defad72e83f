import json
P=[]
def p(title,statement,quant,why,anchors):
    P.append(dict(id="C%02d"%(len(P)+1),title=title,statement=statement,quantifier=quant,why_tests_cant=why,anchors=anchors))

p("Guard application means the guard",
 "Applying a guard or invariant to a zone either reports an error or yields exactly the clock valuations of the zone that satisfy the guard read as ordinary arithmetic and logic over the declared clocks and integer variables.",
 "every boolean expression, every declaration table, every zone and every clock valuation",
 "guards are an unbounded syntax and zones are infinite sets; the repository's own tests pin one wrong result (10-(9-x)) as expected",
 ["src/EdgeEval/constraint_applyer.rs: apply_constraints_to_state, get_indices, replace_vars, get_clock_val, combine_clocks","src/ModelObjects/Expressions/arith_expression.rs: simplify, move_clock_and_vars, simplify_helper"])
p("Simplifying an arithmetic expression preserves its value",
 "The simplified form of an arithmetic expression has the same value as the original under every assignment of the clocks and variables, or simplification reports an error.",
 "every arithmetic expression and every valuation",
 "the expression space is unbounded and the bug only shows for particular nestings",
 ["src/ModelObjects/Expressions/arith_expression.rs: simplify, move_clock_and_vars, clone_expr, simplify_helper"])
p("Forward update is the image under the assignments",
 "Applying an edge's updates to a zone yields exactly the valuations obtained by executing the assignments in order from some valuation of the zone, whatever the number of updates and repeated targets.",
 "every update list, every zone, every valuation","zones are infinite sets and update lists unbounded",
 ["src/EdgeEval/updater.rs: CompiledUpdate::apply","src/ModelObjects/transition.rs: apply_updates"])
p("Backward update is the weakest precondition of the assignments",
 "Applying a transition's updates backwards to a set of valuations yields exactly the valuations from which executing the assignments ends inside the set.",
 "every update list, every zone, every valuation","the failure needs two conflicting assignments to one clock; tests use single resets",
 ["src/EdgeEval/updater.rs: apply_as_guard, apply_as_free","src/ModelObjects/transition.rs: inverse_apply_updates"])
p("Allowed federation is exactly the set of valuations that may fire",
 "The federation a transition reports as allowed contains a valuation exactly when the valuation satisfies the guard and executing the updates lands inside the target location's invariant.",
 "every transition whose updates do not assign one clock two different constants, every valuation","infinite valuations, unbounded updates and invariants",
 ["src/ModelObjects/transition.rs: get_allowed_federation, inverse_apply_updates","src/TransitionSystems/location_tree.rs: apply_invariants"])
p("Taking a transition computes the exact timed successor set",
 "Taking a transition from a symbolic state succeeds exactly when some valuation of the state can fire it and then reach, by letting time pass, the target invariant; on success the new zone is exactly the set of valuations reached by firing and delaying, restricted to the target invariant, and the new location is the target.",
 "every symbolic state, every transition, every valuation","zones are infinite sets",
 ["src/ModelObjects/transition.rs: use_transition, apply_guards, apply_updates, move_locations"])
p("Conjunction steps are joint steps",
 "Under a conjunction the transitions for an action from a location pair are exactly the pairs of component transitions for the action: a valuation enables the joint transition iff it enables both, its effect is both update lists, and its target is the pair of targets.",
 "every pair of systems, location pair, action and valuation","nesting of systems and transition lists are unbounded",
 ["src/TransitionSystems/conjunction.rs: next_transitions","src/ModelObjects/transition.rs: combinations","src/TransitionSystems/location_tree.rs: compose"])
p("Parallel composition synchronises shared actions and interleaves private ones",
 "Under composition an action known to both sides is taken jointly, an action known to one side is taken by that side while the other side stays in place with no guard and no update; no other transitions exist and no declared action hits the unreachable branch.",
 "every pair of systems, location pair, action and valuation","unbounded nesting",
 ["src/TransitionSystems/composition.rs: new_ts, next_transitions","src/ModelObjects/transition.rs: without_id, combinations"])
p("Action alphabets of composed systems",
 "Composition is accepted only if outputs are disjoint; its outputs are the union, its inputs are the inputs not matched by the other side's outputs, and inputs and outputs stay disjoint if they were so in the parts. Conjunction is accepted only if no side's inputs meet the other's outputs; alphabets are the intersections. Every nested system built by the tool has disjoint inputs and outputs.",
 "every system expression and every component alphabet","system expressions nest without bound",
 ["src/TransitionSystems/composition.rs: new_ts","src/TransitionSystems/conjunction.rs: new_ts","src/TransitionSystems/quotient.rs: new_ts"])
p("Quotient transitions follow the quotient rules",
 "For a quotient T \\\\ S, a pair of locations offers an action at a valuation exactly as the quotient rules say: actions known to both are taken jointly exactly where both can take them, actions known to one side alone are taken by that side, where S's invariant fails or S cannot produce one of its outputs the quotient goes to the universal location, where S can produce an output that T (also as an output) cannot the quotient goes to the inconsistent location, and the new input leads to the inconsistent location where T's invariant fails while S's holds. The universal location offers every action without condition; the inconsistent location offers exactly the inputs, and only while the quotient clock is zero; both only loop.",
 "every pair of systems, location pair, action and valuation","ten interacting rules over infinite zones",
 ["src/TransitionSystems/quotient.rs: new_ts, next_transitions, get_all_locations"])
p("A reported reachability path is a real run",
 "When a reachability query answers with a path, executing the listed transitions one after the other from the start state is possible in the concrete timed semantics and ends in a state matching the target, for some choice of delays, provided zones are not over-approximated.",
 "every system, start state, target state, exploration order","the state space is infinite and the exploration order nondeterministic",
 ["src/System/reachability.rs: find_path, reachability_search, take_transition, make_path"])
p("An 'unreachable' answer is never wrong",
 "When a reachability query answers that no path exists, no concrete run of the system from the start state ever enters the target, whatever the extrapolation does as long as it only enlarges zones.",
 "every system, start state, target, exploration order, run length and every extensive extrapolation","quantifies over all runs of an infinite-state system",
 ["src/System/reachability.rs: find_path, is_trivially_unreachable, reachability_search, take_transition"])
p("A positive refinement answer is backed by a refinement relation",
 "When the refinement check succeeds, there is a relation between concrete timed states containing the initial pair in which every output and delay of the left is matched by the right and every input of the right is matched by the left.",
 "every pair of systems, every action iteration order, every extensive extrapolation","infinite state spaces and unbounded exploration",
 ["src/System/refine.rs: check_refinement, has_valid_state_pairs, build_state_pair, prepare_init_state"])
p("A negative refinement answer is justified",
 "When exploration is exact and the refinement check reports that an action cannot be matched, there is a reachable pair of concrete states that violates the matching requirement.",
 "every pair of systems and action iteration order, extrapolation exact","infinite state spaces",
 ["src/System/refine.rs: check_refinement, has_valid_state_pairs, build_state_pair"])
p("Refinement preconditions",
 "The refinement check only explores systems whose alphabets satisfy: left inputs disjoint from right outputs, right inputs disjoint from left outputs, left inputs contained in right inputs and right outputs contained in left outputs; otherwise it fails with an action mismatch. Missing actions are treated as self-loops that change nothing.",
 "every pair of alphabets","alphabets are arbitrary sets",
 ["src/System/refine.rs: check_preconditions, common_actions, extra_actions"])
p("A positive determinism answer holds in every reachable state",
 "When the determinism check succeeds, in every state reachable by any concrete run no two different transitions with the same action are enabled together.",
 "every system, run, action, iteration order and extensive extrapolation","all runs of an infinite-state system",
 ["src/System/local_consistency.rs: check_determinism, is_deterministic, is_deterministic_helper"])
p("A negative determinism answer is justified",
 "When the determinism check fails and exploration is exact, some concretely reachable state enables two transitions with the reported action.",
 "every system and iteration order","all runs of an infinite-state system",
 ["src/System/local_consistency.rs: is_deterministic_helper"])
p("A positive least-consistency answer means the environment can be survived",
 "When the least consistency check succeeds, the system has a strategy that keeps every state reached under any inputs consistent: time can pass forever or some output leads on to a consistent state.",
 "every system, exploration order and run","strategies range over infinite plays; the bug needs a state revisited after its branch failed",
 ["src/System/local_consistency.rs: is_least_consistent, consistency_least_helper"])
p("A positive full-consistency answer holds in every reachable state",
 "When the full consistency check succeeds, every symbolic state reached by inputs and outputs either can delay forever or offers an output.",
 "every system, exploration order and run","all runs of an infinite-state system",
 ["src/System/local_consistency.rs: is_fully_consistent, consistency_fully_helper"])
p("Input enabling is complete and adds no nondeterminism",
 "After input enabling, in every location, for every declared input and every valuation in the location's invariant, some input edge is enabled; every added edge is a self-loop without updates enabled only where no original edge could fire.",
 "every component, location, input and valuation","complement of infinite sets",
 ["src/System/input_enabler.rs: make_input_enabled"])
p("Waiting and passed lists never lose or invent states",
 "A pair put on the waiting list is popped exactly once unless already covered; the list claims to contain a pair only if an equal-location pair with a containing zone is queued; the passed list claims containment only if the zone is covered by zones that were put before.",
 "every sequence of put, pop and has operations","unbounded operation histories",
 ["src/DataTypes/statepair_list.rs: DepthFirstWaitingStateList, PassedStateListFed, PassedStateListVec"])
p("Zones survive conversion to guard expressions and back",
 "Converting a federation to a boolean expression over clock names and applying the expression to the universe gives the same federation; the special cases true and false are kept apart.",
 "every federation over every injectively named set of clocks","infinite sets, unbounded disjunctions",
 ["src/ModelObjects/Expressions/bool_expression.rs: from_disjunction, from_conjunction, from_constraint","src/EdgeEval/constraint_applyer.rs"])
p("Saved guards reload with the same meaning",
 "Encoding a guard to text for a saved component and parsing that text back yields a guard with the same meaning.",
 "every boolean expression","unbounded syntax; operator nesting",
 ["src/ModelObjects/Expressions/bool_expression.rs: encode_expr","src/ModelObjects/Expressions/arith_expression.rs: encode_expr","src/DataReader/parse_edge.rs","src/DataReader/grammars/edge_grammar.pest"])
p("Printed queries parse back to themselves",
 "Parsing the printed form of a system expression gives back the expression with its structure (precedence and associativity) intact.",
 "every system expression","unbounded nesting",
 ["src/DataReader/parse_queries.rs","src/ModelObjects/Expressions/query_expression.rs","src/DataReader/grammars/query_grammar.pest"])
p("Model cache returns the user's own latest model",
 "A cache lookup by user and hash returns a model only if that user's most recent insertion carried that hash and was not evicted, and returns exactly that model; lookups never see another user's model; hash zero is never served; the number of cached users never exceeds the capacity and eviction removes the least recently used user.",
 "every sequence of lookups and insertions by every set of users, and every interleaving of concurrent requests","unbounded histories and schedules",
 ["src/DataReader/component_loader.rs: ModelCache","src/ProtobufServer/ecdar_requests/request_util.rs: get_or_insert_model"])
p("User tokens are unique",
 "Any two token requests receive different user ids, under any interleaving, as long as fewer than 2^32 tokens were handed out; after that ids repeat.",
 "every number and interleaving of token requests","2^32 requests cannot be tested",
 ["src/ProtobufServer/ecdar_backend.rs: get_user_token"])
p("Clocks merged by clock reduction are equal in every run",
 "Two clocks placed in the same equivalence group by the redundancy analysis have equal values in every state of every run of the system.",
 "every system, every run","all runs",
 ["src/TransitionSystems/transition_system.rs: find_equivalent_clock_groups, find_edges_and_nodes"])
p("Clocks removed as unused influence nothing",
 "A clock reported as unused by the redundancy analysis is not read by any guard or invariant of any location or edge of the explored system.",
 "every system","unbounded models",
 ["src/TransitionSystems/transition_system.rs: find_used_clocks, find_clock_redundancies","src/ModelObjects/component.rs: remove_clock"])
p("Clock indices are disjoint and dense",
 "Building a system from a query assigns every component instance its own contiguous block of clock indices, no two instances share an index, all quotients of the query share one extra clock, and every index is below the dimension; compressing after reduction yields again exactly the indices 1..dim-1.",
 "every query expression and component set","unbounded queries and declarations",
 ["src/System/extract_system_rep.rs: get_system_recipe, SystemRecipe, compress_component_decls, clock_reduce","src/ModelObjects/component.rs: set_clock_indices"])
p("Locations and zones survive the wire format",
 "Converting a location or a zone to its protobuf form and back gives the same location and the same zone, so a simulation step continues from exactly the state the client was shown.",
 "every location tree and every federation","unbounded trees and infinite sets",
 ["src/ProtobufServer/proto_conversions.rs","src/DataReader/proto_reader.rs: proto_state_to_state, proto_zone_to_owned_federation","src/System/specifics.rs"])
p("A saved composite behaves like the composite",
 "The component produced by saving a system has, for every location of the system, the same transitions with the same guards, updates, targets and the same invariant.",
 "every system, location, action and valuation","unbounded systems",
 ["src/System/save_component.rs: combine_components, collect_edges_from_location, get_locations_from_trees, get_clock_map"])
p("Clock names stay distinct when saving",
 "When a composite is saved every clock of every part gets its own name, so that no clock is lost or confused with another.",
 "every list of declarations and every iteration order","collisions need adversarial names and hash orders",
 ["src/System/save_component.rs: get_clock_map"])
p("Maximum bounds dominate every constant a clock is compared with",
 "The bound reported for a clock is at least every constant the clock is compared with in a guard or invariant.",
 "every component, clock, guard and invariant","unbounded syntax",
 ["src/ModelObjects/component.rs: get_max_bounds","src/ModelObjects/Expressions/bool_expression.rs: get_max_constant","src/ModelObjects/Expressions/arith_expression.rs: get_constant"])
p("Partial location matching is a faithful wildcard match",
 "Comparing a location with a partial location answers true exactly when they have the same shape and every non-wildcard leaf is the same location; it is symmetric, and every location matches itself.",
 "every pair of location trees","unbounded trees",
 ["src/TransitionSystems/location_tree.rs: compare_partial_locations","src/TransitionSystems/location_id.rs"])
p("Transition identifiers list the edge of every component",
 "Extracting the leaves of a transition identifier gives, for every component of the system in order, exactly the component's edges taken, and never aborts.",
 "every transition identifier and system shape","unbounded trees",
 ["src/TransitionSystems/transition_id.rs: get_leaves, split_into_component_lists"])
p("Every simulation decision offered can be taken",
 "Each decision offered by the simulator from a state can be resolved without an internal error, and its resulting states are exactly those reachable by taking the offered action from the offered subset of the state.",
 "every system, state, action and transition","infinite zones",
 ["src/Simulation/decision.rs: resolve, from_state_transition, get_decisions_from_state"])
p("Pruning removes nothing a client could use",
 "Pruning a composite system leaves every consistent location and every transition between consistent locations in place.",
 "every component and every set of inconsistent locations","unbounded models",
 ["src/System/pruning.rs: prune, prune_system, is_immediately_inconsistent","src/System/save_component.rs: combine_components"])
p("Declarations survive saving",
 "Writing a declaration table to text and reading it back gives a table with the same clock names.",
 "every declaration table and iteration order","unbounded texts",
 ["src/DataReader/serialization.rs: decode_declarations, encode_declarations"])
p("Location identifiers identify locations",
 "Two different locations of one system never have the same textual identifier, so graph nodes, saved locations and matching by id never merge different locations.",
 "every system and pair of locations","names are arbitrary strings",
 ["src/TransitionSystems/location_id.rs: get_unique_string, Display"])
p("Query states are decoded to the locations and zone they name",
 "A state expression in a reachability query is turned into the location tree that names exactly the given location for each component (wildcard where none is given) and the zone cut by exactly the given clock constraints, or an error is reported.",
 "every state expression and system","unbounded expressions",
 ["src/System/extract_state.rs: get_state, get_locations, construct_location_tree"])
p("System declarations are read faithfully",
 "Reading the system declaration text records exactly the listed components and, for each, exactly the listed inputs and outputs in order, for every IO line that is accepted.",
 "every list of component names and IO lines","unbounded texts",
 ["src/ModelObjects/system_declarations.rs: decode_sync_type"])
p("Request handling answers every request and panics stay contained",
 "A query request that panics is answered with an internal error and leaves the cache usable for all later requests.",
 "every history of requests, some of which panic","unbounded histories, failure points",
 ["src/ProtobufServer/ecdar_backend.rs: catch_unwind, send_query","src/DataReader/component_loader.rs: ModelCache (mutex)"])
p("Offered transitions lead to locations of the system and computing them never aborts",
 "From every location of a built system and for every action the system declares, computing the offered transitions succeeds and every offered transition leads to a location of the system again; the initial location is one of them. So no exploration of any length hits an internal error while asking for transitions.",
 "every built system, location and declared action","unbounded nesting and exploration length",
 ["src/TransitionSystems/transition_system.rs: next_transitions, get_all_locations","src/TransitionSystems/quotient.rs: next_transitions","src/TransitionSystems/composition.rs: next_transitions (unreachable!)"])
p("Compiling a component keeps its meaning",
 "The compiled form of a component has one location per location of the model, with the invariant as written, and in every location offers for every action exactly the edges leaving it with that action; each fires exactly for the clock values satisfying its guard, resets the clocks as written and needs the target's invariant afterwards.",
 "every component, location, action and pair of clock valuations","unbounded components and dense time",
 ["src/TransitionSystems/compiled_component.rs: compile_with_actions, next_transitions","src/TransitionSystems/transition.rs: from_component_and_edge","src/TransitionSystems/location_tree.rs: simple"])
p("Printed queries of every kind parse back to themselves",
 "A list of queries printed as text and parsed again gives the same list: the kind of each query, its systems, the start and target states of reachability queries and the name a component is saved under. Texts the grammar accepts never abort the program.",
 "every list of queries","unbounded nesting of states, systems and lists",
 ["src/DataReader/parse_queries.rs: parse_to_expression_tree, build_query_from_pair, build_state_from_pair","src/ModelObjects/Expressions/query_expression.rs: Display","src/ModelObjects/Expressions/state_expression.rs: Display","src/DataReader/grammars/query_grammar.pest"])
p("Clock reduction does not change the behaviour of a system",
 "Removing a clock reported as unused and merging clocks reported as equal leaves every component with the same behaviour: the same edges are enabled after the same delays, up to the removed and renamed clocks.",
 "every system and every run","dense time, unbounded models",
 ["src/System/extract_system_rep.rs: clock_reduction","src/ModelObjects/component.rs: remove_clock, replace_clock","src/TransitionSystems/transition_system.rs: find_redundant_clocks"])
p("A component written to a file and loaded again is the same component",
 "Saving a component and loading the file gives a component with the same name, clocks, locations, invariants, edges, guards, updates and actions.",
 "every component","unbounded components and expressions",
 ["src/DataReader/serialization.rs: DummyComponent, DummyEdge, DummyLocation, encode_*, decode_*","src/ModelObjects/component.rs","src/ModelObjects/edge.rs","src/ModelObjects/location.rs","src/DataReader/json_writer.rs: component_to_json_file"])
p("Pruning leaves no way into an inconsistent location",
 "After a component or system has been pruned, no run of the result enters a location that was declared inconsistent.",
 "every component, every system, every run of the pruned result","all runs, unbounded models",
 ["src/System/pruning.rs: prune, prune_system, handle_output, is_immediately_inconsistent","src/System/save_component.rs: combine_components, get_locations_from_trees"])
p("A query is accepted exactly when its systems may be combined",
  "Building the system of a query accepts a composition exactly when its operands are accepted and share no output, a conjunction exactly when its operands are accepted, no action is an input of one and an output of the other, and the conjunction passes the consistency check, and a quotient exactly when its operands are accepted, no output of the divisor is an input of the dividend, and both operands pass the determinism and consistency checks. Otherwise the query is rejected with an error. So both operands of every quotient in an accepted system, at any depth, are deterministic in every reachable state.",
  "every system expression over every set of components, every clock numbering, every order of actions and every extrapolation",
  "Tests combine a handful of components; whether some nesting of operators slips past a check depends on every expression and on every reachable state of its operands.",
  ["src/System/extract_system_rep.rs: SystemRecipe::compile, _compile", "src/TransitionSystems/composition.rs: Composition::new_ts", "src/TransitionSystems/conjunction.rs: Conjunction::new_ts", "src/TransitionSystems/quotient.rs: Quotient::new_ts", "src/TransitionSystems/transition_system.rs: precheck_sys_rep"])
p("Answers to queries are about the systems the query names",
 "Asking a query, with or without clock reduction, answers about the system its expression names in the loaded project: a satisfied refinement means the left system refines the right one, a refinement reported as failed because a transition cannot be matched or delays are cut means it does not, a satisfied determinism or consistency query means the named system is deterministic (and its components can survive), a saved component behaves as the named system and carries the requested name, unreachable means no reachable state satisfies the target, and a reported path is a run of the named system. In a run over several queries each answer is the one the query gets on its own over the project together with the components earlier queries saved; queries that save nothing do not influence each other, and queries sent to a server never do.",
 "every query, project, system expression, list of queries, extrapolation and iteration order, with and without clock reduction",
 "The answer goes through numbering, reduction, compilation and a search; that no combination of them answers about another system depends on all models and all their runs.",
 ["src/System/extract_system_rep.rs: create_executable_query, get_system_recipe, clock_reduction","src/System/executable_query.rs: execute","src/main.rs: start_using_cli","src/DataReader/component_loader.rs: save_component, get_component","src/ProtobufServer/ecdar_requests/send_query.rs"])
p("A model in an XML document is read as it is drawn",
 "Loading an XML document gives one component per template, in order, with the name, clocks, locations, invariants, initial location, edges, guards, updates, actions and directions written in the document, and the system declarations list the components and the inputs and outputs of each. This holds with either kind of line ends, in whatever order the labels come and whatever other elements the editor adds. A project file called something.xml is loaded this way, and the edges keep distinct ids.",
 "every document with any number of templates, locations, edges, labels and declaration lines",
 "Documents are unbounded trees of text; tests read seven of them.",
 ["src/DataReader/xml_parser.rs: parse_xml, collect_locations, collect_edges, parse_declarations, decode_sync_type, is_xml_project","src/main.rs: get_project_loader"])
p("A loader returns the project's components, and what was saved over them",
 "Over every history of look-ups and saves, looking up a component in a JSON project gives the component last saved under that name, and otherwise the component in the file of that name, made to accept its declared inputs in every location; the order and number of look-ups make no difference. Only the files of saved components change, and starting again on the folder gives the same components. An XML project gives the last template of each name, accepting its declared inputs; the server gives the last component of each name that was sent, accepting its own inputs.",
 "every project folder, every XML document, every list of sent components and every history of look-ups and saves",
 "Histories of look-ups and saves are unbounded, and caching makes the answer depend on the history in the code.",
 ["src/DataReader/component_loader.rs: JsonProjectLoader, XmlProjectLoader, ComponentContainer, get_component, save_component, parse_components_if_some","src/DataReader/json_reader.rs: read_json_component","src/DataReader/json_writer.rs: component_to_json_file","src/System/extract_system_rep.rs: get_system_recipe"])
p("A failed query says what is wrong, and what it says is true",
 "The reply to a query is a success exactly when the query is satisfied. When it is not, the reply names the system or component at fault, and what it says holds: a reported non-determinism shows a reached location and an action with two transitions that are possible together; a reported inconsistency shows a state to which inputs lead and which is inconsistent or stuck, or a system without a start; a failed refinement shows a common state that can be reached and an action that cannot be matched or cuts delays, or names the actions that do not fit; a rejected model names the part of the expression and the actions that clash. A reachability query that is satisfied is answered with the steps of a run from a state the query starts in to one it asks for, each with its action, the edges that are taken and the states before and after it. Locations, component instances, clock names and constraints in the message denote the state that was found. Whenever the check ends a reply can be built.",
 "every query, project, system expression and failure, every iteration order, with and without clock reduction",
 "Messages are built from states found by unbounded searches over arbitrary systems; tests compare the kind of failure of a few fixed models.",
 ["src/System/query_failures.rs","src/System/specifics.rs","src/ProtobufServer/proto_conversions.rs","src/System/local_consistency.rs","src/System/refine.rs","src/System/executable_query.rs: QueryResult","src/TransitionSystems/transition_system.rs: precheck_sys_rep"])
p("Every check ends",
 "Every determinism, consistency, refinement and reachability check, every analysis of the clocks of a system and every saving of a system comes to an end, and so does every query built from them and every command line of queries. Checks for determinism, consistency and refinement end with an answer: they never abort. The answer does not depend on how long the tool is allowed to run.",
 "every system of components, compositions, conjunctions and quotients, every query and list of queries, every order in which hash sets are listed, every extrapolation that leaves finitely many zones per location",
 "A test that ends says nothing about the next model; non-termination shows only for models whose zones keep growing.",
 ["src/System/local_consistency.rs","src/System/refine.rs: check_refinement","src/System/reachability.rs: find_path, search_algorithm","src/DataTypes/statepair_list.rs","src/System/save_component.rs","src/TransitionSystems/transition_system.rs: find_redundant_clocks, ClockAnalysisGraph","src/System/executable_query.rs","src/main.rs: start_using_cli"])
p("The command line prints one true line per query and changes only the files of created components",
 "Running the program on a project with a text of queries prints, if it does not abort, exactly one line for each query, in order: that the property is satisfied, that it is not, or that the component was created, as the query is answered on the components of the project and those created by earlier queries of the same text. It prints something exactly if the text is a list of queries, the project can be opened and every query is answered. Afterwards the files of created components hold them and every other file is unchanged. If it says that a refinement, determinism or consistency is satisfied, or that a target is reachable, this is true of the systems the query names in the files of the project, and if it says that one is not, this is not so.",
 "every text of queries, every project folder or document, every choice of options, every number of queries",
 "Texts, projects and numbers of queries are unbounded, and each answer rests on an unbounded search.",
 ["src/main.rs: main, start_using_cli, parse_args, get_project_loader","src/cli.rs: Args, query_check","src/ModelObjects/queries.rs: decode_query","src/DataReader/json_reader.rs: read_queries, read_system_declarations","src/DataReader/component_loader.rs: JsonProjectLoader::new_loader, XmlProjectLoader::new_loader","src/System/executable_query.rs: print_result"])
p("A created component can be drawn and saved",
 "Whatever get-component or prune query creates a component, its edges lead from and to its own locations, so drawing it does not abort and it is written to its file. In the drawing every location and every label of an edge has a place inside the frame of the component, the frame is centred and its sides have a ratio within the limit, and what the simulation of forces puts to the left or above stays there.",
 "every query and project, every component, every result of the simulation, every configuration",
 "Components and their drawings are unbounded and the simulation starts at random places.",
 ["src/Simulation/graph_layout.rs: layout_dummy_component, Config","src/DataReader/serialization.rs: DummyComponent, DummyEdge, DummyNail","src/DataReader/json_writer.rs: component_to_json_file, component_to_json","src/System/save_component.rs: combine_components"])
p("A conjunction is the greatest specification below its operands",
 "The conjunction of two specifications that never refuse an input refines both of them, and every deterministic specification that refines both refines the conjunction. So with the same actions, to refine A && B is to refine A and to refine B.",
 "every three systems of components, compositions, conjunctions and quotients with clocks of their own",
 "Refinement is about all runs of unboundedly many systems; tests compare a few fixed models.",
 ["src/TransitionSystems/conjunction.rs: Conjunction::new_ts, next_transitions","src/System/refine.rs: check_refinement"])
p("A part of a composition can be replaced by a refinement of it",
 "If A1 refines A2 and B1 refines B2, where A1 and B1 are deterministic and A2 and B2 never refuse an input, then A1 || B1 refines A2 || B2.",
 "every four systems of components, compositions, conjunctions and quotients with clocks of their own, whose additional outputs the others do not use",
 "Stepwise development relies on it for systems no test contains.",
 ["src/TransitionSystems/composition.rs: Composition::new_ts, next_transitions","src/System/refine.rs: check_refinement"])
p("A quotient is the weakest specification of the missing part",
 "If X refines the quotient T \\\\ S then S || X refines T, and if S || X refines T then X refines the quotient, for deterministic specifications of which S and, for the second, X never refuse an input, and of which, for the first, X can always wait or send.",
 "every specification T, every part S and every component X with clocks of their own",
 "The quotient is asked for before any X exists; the property ranges over all of them.",
 ["src/TransitionSystems/quotient.rs: Quotient::new_ts, next_transitions","src/TransitionSystems/composition.rs","src/System/refine.rs: check_refinement"])
p("The order and grouping of the operands of && and || do not matter",
 "A && B and B && A refine each other, and so do A || B and B || A, (A && B) && C and A && (B && C), (A || B) || C and A || (B || C).",
 "every three systems of components, compositions, conjunctions and quotients with clocks of their own",
 "Users write expressions in any order; tests contain few permutations of few models.",
 ["src/TransitionSystems/conjunction.rs: Conjunction","src/TransitionSystems/composition.rs: Composition"])
p("An expression means the same wherever it stands",
 "The system an expression names when it is checked alone, on the left of a refinement and on the right of one behaves the same, whatever the other side is and however its clocks are numbered; so whether one expression refines another depends on the two expressions and the named components only.",
 "every two expressions and every project whose components load",
 "Clock numbers depend on everything that precedes an expression in a query; tests fix a few queries.",
 ["src/System/extract_system_rep.rs: create_executable_query, get_system_recipe, SystemRecipe::compile","src/ModelObjects/component.rs: set_clock_indices"])
p("Answers to different queries fit together",
 "The laws of refinement hold between the systems that different queries name: E <= E; E <= F and F <= G give E <= G; X <= A && B exactly if X <= A and X <= B; A1 <= A2 and B1 <= B2 give A1 || B1 <= A2 || B2; X <= T \\\\ S exactly if S || X <= T; order and grouping do not matter. So, for queries whose answers are right (C50), no query is denied with a behaviour although the answers to others imply it.",
 "every expressions and projects, every order in which hash sets are iterated over, every extrapolation in each of the queries",
 "Each answer comes from a separate unbounded search over separately numbered clocks.",
 ["src/System/executable_query.rs: RefinementExecutor::execute","src/System/refine.rs: check_refinement","src/System/extract_system_rep.rs: create_executable_query","src/TransitionSystems/*"])
p("A created component can stand for the expression it was made of",
 "If get-component E save-as M is answered with a component, then afterwards M names a component that loads, has the inputs and outputs of E, starts if E does, and refines and is refined by exactly what E refines and is refined by; E and M refine each other. So no query about M is denied with a behaviour although the same query about E is satisfied, or the other way round. This is for expressions all of whose actions can happen, with at most one quotient and clock names that stay apart: an action that never happens is not in M. What other expressions mean does not change.",
 "every expression, project and name, every order in which hash sets are iterated over, with and without removal of clocks, every other expression on either side of a refinement",
 "The component and the queries asked about it afterwards are unbounded; tests create a few components and never ask about them again.",
 ["src/System/save_component.rs: combine_components","src/System/executable_query.rs: GetComponentExecutor::execute","src/DataReader/component_loader.rs: save_component","src/System/extract_system_rep.rs: get_system_recipe","src/System/refine.rs: check_refinement"])
p("A created component can be used inside larger expressions",
 "Replacing, anywhere inside a larger expression, a part E by the component M that get-component made of E gives a system that has the same inputs and outputs and that, state by state, can wait and act like the original one: so every refinement between expressions that contain E holds exactly if it holds with M in the place of E, and no such query is denied with a behaviour although the other is satisfied. More generally, systems that cannot be told apart cannot be told apart as operands of &&, || and \\\\. (For expressions in which no two operands of an operator both contain quotients, which would share a clock.)",
 "every expression around E, on both sides of a refinement, every project, every order in which hash sets are iterated over",
 "The surrounding expressions and their clock numbers are unbounded; refinement both ways alone would not imply it, because quotients look at what an operand cannot do.",
 ["src/TransitionSystems/conjunction.rs: next_transitions","src/TransitionSystems/composition.rs: next_transitions","src/TransitionSystems/quotient.rs: next_transitions","src/System/save_component.rs: combine_components","src/System/extract_system_rep.rs: get_system_recipe"])
p("Operands can be reordered and regrouped anywhere in an expression",
 "If an expression is obtained from another by changing the order or the grouping of operands of && and ||, at any depth and any number of times, below other operators and quotients too, the two name systems that cannot be told apart; so a refinement holds exactly if it holds with both sides rearranged, and no rearranged query is denied with a behaviour although the original one is satisfied.",
 "every two expressions, one a rearrangement of the other by steps through legal expressions, and every project whose components load",
 "The number of rearrangements grows with the factorial of the number of operands; each numbers clocks and names locations differently.",
 ["src/TransitionSystems/conjunction.rs: Conjunction","src/TransitionSystems/composition.rs: Composition","src/TransitionSystems/quotient.rs: Quotient","src/System/extract_system_rep.rs: get_system_recipe, SystemRecipe::compile"])
p("Clients of the server are answered about the components they sent",
 "Whatever other clients do meanwhile, a query that is answered is answered with its own number and about the components sent with it (under each name the last one, accepting its inputs everywhere): refinement is confirmed only if it holds and denied only with a reason that is one, determinism and consistency are confirmed only if they hold and denied only with a reason that is one, and a reachable state is shown with the steps of a run to it. A client that starts a simulation and keeps sending back decisions it was offered is always shown a state the system can reach with exactly the steps possible in it, and is never told that an offered decision cannot be taken. Every request is answered, if its handling ends; a server with an empty cache does not start.",
 "every sequence of requests and schedule of handlers, every set of components as JSON or XML, every order in which hash sets are iterated over in each request",
 "Requests interleave, simulations have any length, and each request rebuilds the system with other hash seeds.",
 ["src/ProtobufServer/ecdar_backend.rs: handle_request","src/ProtobufServer/server.rs: start_grpc_server_with_tokio","src/ProtobufServer/ecdar_requests/send_query.rs: handle_send_query","src/ProtobufServer/ecdar_requests/simulation_requests.rs: handle_simulation_start, handle_simulation_step","src/ProtobufServer/ecdar_requests/request_util.rs","src/DataReader/component_loader.rs: parse_components_if_some"])
p("A command that is interrupted leaves all other components as they were",
 "A command on a JSON project that is killed or panics at any point leaves in the folder, apart from at most one file, exactly the files of the components before and of those made by the queries that were done; the one file is the one the next component is being written to, and until it is made anew it cannot be used. A later command that does not ask about that component before making it again prints what it would have if nothing had happened. A component that is being replaced can be lost, and a command that panics and prints nothing keeps what it made before.",
 "every command line, every project, every point of the run between writes",
 "Every query and every write adds points at which the run can end.",
 ["src/main.rs: start_using_cli","src/DataReader/json_writer.rs: component_to_json_file","src/DataReader/component_loader.rs: save_component, load_component","src/DataReader/json_reader.rs: read_json_component"])
p("A created component keeps its meaning in later commands and requests",
 "If get-component: E save-as N is answered, a later command on the same project finds under N the component that was made, and all others as before; a client that sends the JSON it was answered with back to the server has the same. Every expression then means what it meant when N was made, N can be exchanged for E inside every expression and on both sides of a refinement, and what a later command prints as satisfied about N holds of E in the project as it was. Making it accept inputs it already accepts does not change it.",
 "every project, every expression the component is made of and used in, every later command or request and every order in which hash sets are iterated over in them",
 "The way through the file numbers the clocks anew and prints and parses every guard; expressions around the component are unbounded.",
 ["src/DataReader/component_loader.rs: save_component, load_component, From<Vec<Component>> for ComponentContainer","src/DataReader/json_writer.rs: component_to_json_file","src/DataReader/serialization.rs: encode_opt_boolexpr, decode_guard","src/System/save_component.rs: combine_components","src/System/input_enabler.rs: make_input_enabled","src/main.rs: start_using_cli"])
p("What the command line prints below a verdict is true",
 "The lines printed for a query begin with its verdict. Below a refinement that is not satisfied stands one sentence that names the two systems as they were written and says why: one of them has no initial state, a part is inconsistent or not deterministic in the location named, the actions named are missing or clash, or the two systems can get together into the two locations named and there the action named cannot be matched or time is cut. Below a state that can be reached stands a line for every step of a run of the system that leads to it, in order, each with its action and the location it is taken in. Other verdicts have no more lines, and making the lines ends no command whose queries are all answered.",
 "every command line, project and position of a query in it, every order in which hash sets are iterated over, with and without removal of clocks",
 "Systems, searches and paths are unbounded; tests look at the verdict and never at what is printed below it.",
 ["src/main.rs: start_using_cli","src/System/executable_query.rs: QueryResult::print_result, print_path","src/System/query_failures.rs: Display","src/System/specifics.rs: Display","src/System/reachability.rs: find_specific_path","src/System/refine.rs: check_refinement"])
p("Asking again for a path gives the same path",
 "A reachability query about the same system, start and target is always answered in the same way, with the same path if there is one: the order in which a hash set lists the actions does not show in the answer. Where several paths lead to the target, the actions are tried in alphabetical order.",
 "every system, start state, target state and way of cutting off clock values, and every order in which the set of actions is listed",
 "Hash sets are seeded at random; a test run sees one order out of many and systems and searches are unbounded.",
 ["src/System/reachability.rs: reachability_search","src/TransitionSystems/transition_system.rs: get_actions"])
p("A question that is asked again gets the same verdict",
 "Asking the same query about the same components again, in another run of the program, gives the same verdict: a refinement, a reachable state, determinism or consistency that was confirmed once is not denied by the next run, although hash sets list actions in another order and clocks may be removed in one run and not in the other.",
 "every expression, project and state asked for, every two orders in which hash sets are iterated over and every two ways of cutting off clock values",
 "Hash sets are seeded at random; a test run sees one order out of many, and a test that fails for one order in a thousand is called flaky.",
 ["src/System/local_consistency.rs: consistency_least_helper, is_deterministic_helper","src/System/refine.rs: check_refinement","src/System/reachability.rs: find_path","src/TransitionSystems/transition_system.rs: precheck_sys_rep"])
p("Every edge of a component has an identifier of its own",
 "In a component that the program creates (get-component, prune) or completes with edges for inputs it does not handle, no two edges have the same identifier, so the identifiers in a path that is shown name one edge each, and the edges shown of a step, each with the component that takes it, tell the step apart from all others from the same locations; a created component has the name asked for and its edges are called E0, E1, and so on.",
 "every expression, project and choice of a run; every component whose own edges and locations are named apart, every list of inputs; every two steps of a system from one location",
 "Tests look at a few components, whose names contain no underscores and whose edges were numbered by the editor.",
 ["src/System/input_enabler.rs: make_input_enabled","src/ModelObjects/component.rs: remake_edge_ids","src/System/executable_query.rs: GetComponentExecutor","src/System/save_component.rs: combine_components"])
open('/verif/properties.jsonl','w').write(''.join(json.dumps(x)+'\n' for x in P))
print(len(P))
