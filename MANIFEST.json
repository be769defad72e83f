{
 "claims": [
  {
   "property": "C01",
   "status": "partial",
   "theorems": [
    "C01_guard_application_partial",
    "C01_basic_guards_exact",
    "C01_guard_application_refuted",
    "C01_guard_too_strong_refuted",
    "C01_conjunction",
    "C01_no_conjunction_refuted"
   ],
   "note": "Exact on guards whose comparison sides are linear sums; basic comparisons never error. Refuted in general: nested subtraction is re-associated. The conjunction built from a list of guards holds exactly where all of them hold (C01_conjunction), but that of no guards holds nowhere instead of everywhere (C01_no_conjunction_refuted)."
  },
  {
   "property": "C02",
   "status": "partial",
   "theorems": [
    "C02_simplify_linear_partial",
    "C02_simplify_closed",
    "C02_clock_products",
    "C02_simplify_refuted"
   ],
   "note": "Linear sums and closed expressions keep their value; refuted for x - 5 + 3. Products, quotients and remainders of clocks are reported (C02_clock_products)."
  },
  {
   "property": "C03",
   "status": "proved",
   "theorems": [
    "C03_forward_update"
   ],
   "note": "All update lists assigning naturals to real clocks."
  },
  {
   "property": "C04",
   "status": "partial",
   "theorems": [
    "C04_backward_update_partial",
    "C04_backward_update_refuted"
   ],
   "note": "Exact without conflicting assignments to one clock; refuted with x := 1, x := 2."
  },
  {
   "property": "C05",
   "status": "proved",
   "theorems": [
    "C05_allowed_exact"
   ],
   "note": ""
  },
  {
   "property": "C06",
   "status": "proved",
   "theorems": [
    "C06_successor_exact",
    "C06_successor_standard",
    "C06_entry_against_invariant_refuted"
   ],
   "note": "Exact as stated. C06_entry_against_invariant_refuted shows the consequence of delaying before checking a lower-bound invariant; C06_successor_standard shows it agrees with the usual semantics for upper-bound invariants."
  },
  {
   "property": "C07",
   "status": "proved",
   "theorems": [
    "C07_conjunction_steps"
   ],
   "note": "Every conjunction, location pair and declared action."
  },
  {
   "property": "C08",
   "status": "proved",
   "theorems": [
    "C08_composition_steps"
   ],
   "note": "Every composition, location pair and declared action."
  },
  {
   "property": "C09",
   "status": "partial",
   "theorems": [
    "C09_composition_alphabet",
    "C09_conjunction_alphabet",
    "C09_quotient_alphabet",
    "C09_nested_disjoint_partial",
    "C09_nested_disjoint_refuted"
   ],
   "note": "Alphabets of every operator exact. Disjointness of nested systems proved when no divisor contains a quotient and no component uses a reserved name; refuted for T \\\\ (M \\\\ M')."
  },
  {
   "property": "C10",
   "status": "proved",
   "theorems": [
    "C10_quotient_rules",
    "C10_special_locations"
   ],
   "note": "Exact characterisation of every offered transition, assuming the clock discipline clocks_ok."
  },
  {
   "property": "C11",
   "status": "partial",
   "theorems": [
    "C11_path_is_run_partial",
    "C11_paths_are_runs",
    "C11_no_abort_partial",
    "C11_classical",
    "C11_decided_partial",
    "C11_difference_refuted",
    "C11_false_path_refuted",
    "C11_abort_refuted"
   ],
   "note": "Proved for invariants that only bound clocks from above: any reported path can be executed; it ends in the target zone if zones are exact or enlarged only beyond the bounds of the system and the target, which the classical extrapolation does for targets that compare clocks with numbers (C11_classical); then reachability from the initial state is decided (C11_decided_partial). Refuted without these restrictions: C11_false_path_refuted (a path that cannot be executed), C11_abort_refuted (panic while building the path), C11_difference_refuted (a target comparing two clocks is reported reachable though no run reaches it)."
  },
  {
   "property": "C12",
   "status": "partial",
   "theorems": [
    "C12_decided_partial",
    "C12_unreachable_sound_partial",
    "C12_from_initial",
    "C12_start_not_delayed_refuted"
   ],
   "note": "Proved for the initial state as start (C12_from_initial) and for start zones containing their delay successors; refuted for other explicit start zones (C12_start_not_delayed_refuted). C12_decided_partial: with the classical extrapolation the search ends and its answer is right from the initial state, for upper-bound invariants and targets that compare clocks with numbers."
  },
  {
   "property": "C13",
   "status": "partial",
   "theorems": [
    "C13_success_sound_partial",
    "C13_initial_delay_refuted",
    "C13_gap_refuted"
   ],
   "note": "Success implies a refinement relation on concrete timed states for separate clocks when the right's invariants have no gaps and its initial invariant lasts as long as the left's. Refuted without either (C13_gap_refuted, C13_initial_delay_refuted)."
  },
  {
   "property": "C14",
   "status": "partial",
   "theorems": [
    "C14_decided_partial",
    "C14_cannot_match_partial",
    "C14_not_refines_partial",
    "C14_cuts_delays_refuted"
   ],
   "note": "With upper-bound invariants, and zones that are exact or enlarged only beyond the maximum bounds (on components for which these suffice), 'cannot match' names a jointly reachable pair (up to valuations that cannot be told apart) with an unmatched action, and no refinement exists. 'Cuts delays' excludes refinement when the right's guards never enter a violated invariant; refuted otherwise (C14_cuts_delays_refuted). C14_decided_partial: with the classical extrapolation the check ends and its answer is right under the conditions of C13 and C14."
  },
  {
   "property": "C15",
   "status": "proved",
   "theorems": [
    "C15_preconditions",
    "C15_extra_actions"
   ],
   "note": "Every outcome of every check; missing actions as self-loops."
  },
  {
   "property": "C16",
   "status": "partial",
   "theorems": [
    "C16_determinism_sound_partial",
    "C16_nested_quotient_refuted"
   ],
   "note": "Whole composite system, every iteration order and extensive extrapolation, when divisors of quotients contain no quotient. Refuted with a quotient inside a divisor (the new input is offered twice)."
  },
  {
   "property": "C17",
   "status": "partial",
   "theorems": [
    "C17_failure_justified_partial",
    "C17_failure_unreachable_refuted"
   ],
   "note": "A failure exhibits an edge-reachable location with two jointly possible transitions; refuted that the clock values are reachable (the search starts from all clock values)."
  },
  {
   "property": "C18",
   "status": "partial",
   "theorems": [
    "C18_least_consistent_partial",
    "C18_every_component_partial",
    "C18_failed_state_reused_refuted"
   ],
   "note": "Symbolic survival set for systems with at most one output transition per location; refuted in general: a state whose branch failed stays in the passed list and later counts as success."
  },
  {
   "property": "C19",
   "status": "partial",
   "theorems": [
    "C19_fully_consistent_partial",
    "C19_closed_system_partial",
    "C19_stuck_state_refuted"
   ],
   "note": "Closed symbolic set; progress shown except in states with a possible input. Refuted there: the delay test looks at the last passed state, not at the current one."
  },
  {
   "property": "C20",
   "status": "partial",
   "theorems": [
    "C20_input_enabling_partial",
    "C20_no_abort",
    "C20_system_accepts_partial",
    "C20_star_refuted",
    "C20_conflict_refuted"
   ],
   "note": "Completeness and exactness of added edges for all components with distinct location names, supported guards and non-conflicting resets, also at the compiled system (C20_system_accepts_partial). False for wildcard edges (C20_star_refuted) and for two resets of one clock (C20_conflict_refuted). edbm minimal_constraints is any function that describes the same set."
  },
  {
   "property": "C21",
   "status": "proved",
   "theorems": [
    "C21_waiting_list",
    "C21_passed_list",
    "C21_passed_list_vec"
   ],
   "note": "Every sequence of put and pop on the waiting list, every sequence of puts on both passed lists."
  },
  {
   "property": "C22",
   "status": "proved",
   "theorems": [
    "C22_zones_to_guards",
    "C22_true_and_false"
   ],
   "note": "Every federation without reference-only constraints and with named clocks; the guard denotes the set and applying it intersects with exactly the set."
  },
  {
   "property": "C23",
   "status": "partial",
   "theorems": [
    "C23_names",
    "C23_nothing",
    "C23_spacing",
    "C23_updates_spacing",
    "C23_reload_partial",
    "C23_always_read",
    "C23_loaded",
    "C23_uniform_meaning",
    "C23_federations",
    "C23_updates",
    "C23_reading_ends",
    "C23_union_refuted",
    "C23_negative_refuted",
    "C23_parentheses_refuted",
    "C23_written",
    "C23_one_meaning",
    "C23_updates_written"
   ],
   "note": "Every guard with proper names and non-negative i32 constants is read back, and as itself exactly when it needs no parentheses (nesting of products under sums and of 'or' under 'and'); pure conjunctions and pure disjunctions keep their meaning; single-zone federations and unions of one-constraint zones reload as themselves; updates reload. Reading any text ends. The full claim is refuted three ways: a union of two zones is saved without parentheses and changes meaning because 'or' binds tighter for the reader; negative constants are written but do not parse; parenthesised subtraction reassociates. Props/Spacing.v: names are exactly letter-led words of letters, digits and underscores; white space around a guard and a semicolon behind it, spaces, ':=' and a final comma in updates do not matter; an empty guard is true and an empty update changes nothing. Props/Written.v: however a guard or an update is written (numbers, names, operators by precedence and left grouping, extra parentheses, any white space), it is read as the one that is meant, so no text means two guards (C23_written, C23_one_meaning, C23_updates_written)."
  },
  {
   "property": "C24",
   "status": "proved",
   "theorems": [
    "C24_system_expressions",
    "C24_user_text",
    "C24_precedence",
    "C24_written",
    "C24_one_meaning"
   ],
   "note": "Every system expression with proper names (all the parser can produce, C24_user_text) reads back as itself, also with as few parentheses as precedence (quotient < composition < conjunction, left associative) allows. Text after a complete system expression is ignored (C24_rest_ignored). Props/Spacing.v: however an expression is written (any white space, extra parentheses, either quotient sign), it is read as the expression that precedence and left grouping give, so no text means two expressions."
  },
  {
   "property": "C25",
   "status": "proved",
   "theorems": [
    "C25_lookup",
    "C25_capacity",
    "C25_survives",
    "C25_interleavings",
    "C25_served"
   ],
   "note": "Histories of any length and every interleaving of handlers; the lru crate is modelled as a recency list."
  },
  {
   "property": "C26",
   "status": "proved",
   "theorems": [
    "C26_unique",
    "C26_repeats",
    "C26_in_order"
   ],
   "note": "Includes that tokens do repeat beyond 2^32, and the order without interleaving."
  },
  {
   "property": "C27",
   "status": "partial",
   "theorems": [
    "C27_equal_partial",
    "C27_joined_names_refuted"
   ],
   "note": "Proved for systems whose location names do not contain the characters used to join names; the analysis is proved to end. Refuted in general: such names hide a location and its resets from the analysis."
  },
  {
   "property": "C28",
   "status": "partial",
   "theorems": [
    "C28_analysis_ends",
    "C28_unused_partial",
    "C28_joined_names_refuted"
   ],
   "note": "Proved (as independence of the truth of guards and invariants from the clock) for systems whose location names do not contain the characters used to join names. Refuted in general: such names hide a location and its invariant."
  },
  {
   "property": "C29",
   "status": "partial",
   "theorems": [
    "C29_reduced_partial",
    "C29_quotient_refuted",
    "C29_numbering",
    "C29_numbering_two",
    "C29_compiled",
    "C29_repeated_refuted",
    "C29_reduced_two_partial",
    "C29_reduced_two"
   ],
   "note": "Numbering of one system and of the two systems of a refinement, and the clock discipline of the compiled systems, are proved for clock tables without repeated names; refuted when a file declares a clock twice. After the reduction of one system the numbers are again exactly 1..dim' with the quotient clock last, provided the quotient clock is not merged into a lower clock; refuted without that condition. After the reduction of the two systems of a refinement (C29_reduced_two) the same holds without that condition, for descriptions of federations that only mention clocks the federation depends on; C29_reduced_two_partial needs only that no replacement is reported for both systems."
  },
  {
   "property": "C30",
   "status": "partial",
   "theorems": [
    "C30_location",
    "C30_zone",
    "C30_state",
    "C30_compiled",
    "C30_start_partial",
    "C30_step_partial",
    "C30_continues_partial",
    "C30_unnamed_refuted"
   ],
   "note": "Every location, zone, state and decision offered by a simulation is read back from its message as it was (numbers fitting u32, distinct instance numbers and clock names, which compiled queries provide), and a step taken with the returned message answers as the step taken with the decision itself. Refuted as stated: an edge with an empty synchronisation gives an action with the empty name, whose decision is offered but aborts the server when sent back; the partial theorems exclude that name."
  },
  {
   "property": "C31",
   "status": "partial",
   "theorems": [
    "C31_component_partial",
    "C31_behaviour_partial",
    "C31_reloaded_partial",
    "C31_clocks_refuted",
    "C31_locations_refuted",
    "C31_actions_refuted"
   ],
   "note": "Saving (combine_components, get_component) is proved to give exactly the locations, transitions, guards, updates and invariants of the system, and the saved component read back behaves like it, for systems with plain location names, clock names that are not numbered forms of each other, and clocks numbered 1..dim-1. Refuted without these: clock names x, x1 and x make saving abort; joined location names collide; actions that occur only on unreached locations are lost. minimal_constraints is any correct description; hash orders are quantified."
  },
  {
   "property": "C32",
   "status": "partial",
   "theorems": [
    "C32_names_partial",
    "C32_collision_refuted"
   ],
   "note": "Proved for every iteration order when no clock is named like another with a number appended; refuted otherwise: with x, x1 in one part and x in the next the clock x1 is lost for every order."
  },
  {
   "property": "C33",
   "status": "partial",
   "theorems": [
    "C33_bounds_partial",
    "C33_indistinguishable",
    "C33_system",
    "C33_compiled",
    "C33_compound_refuted"
   ],
   "note": "Proved for constants written as a single number, with the purpose of the bounds (valuations beyond them are not told apart) and for systems. Refuted for compound constants: x <= 5 + 5 leaves the bound of x at 0."
  },
  {
   "property": "C34",
   "status": "partial",
   "theorems": [
    "C34_matching",
    "C34_symmetric",
    "C34_exact",
    "C34_self_partial",
    "C34_names",
    "C34_self_refuted"
   ],
   "note": "Exact wildcard match, symmetry and self-match proved for locations without the quotient's special locations; those do not match themselves (C34_self_refuted)."
  },
  {
   "property": "C35",
   "status": "partial",
   "theorems": [
    "C35_leaves_partial",
    "C35_offered",
    "C35_split",
    "C35_abort_refuted",
    "C35_misaligned_refuted"
   ],
   "note": "Proved for identifiers that say something about every component (in particular for every transition offered by conjunctions and compositions whose composed parts take part in the action) and for splitting whole paths. Refuted in general: extracting the leaves aborts on a quotient's divisor-only transitions, and components of a composed part that stays put are left out, which shifts later components."
  },
  {
   "property": "C36",
   "status": "partial",
   "theorems": [
    "C36_decisions_exact",
    "C36_resolve_partial",
    "C36_session_real",
    "C36_ambiguous_refuted",
    "C36_lower_bound_refuted",
    "C36_no_initial_state"
   ],
   "note": "Offered decisions are proved exact and complete for every state of every built system. That resolving never aborts is proved for simulations of deterministic systems with upper-bound invariants and refuted outside: ambiguous outputs, and lower-bound invariants even when the determinism check succeeds."
  },
  {
   "property": "C37",
   "status": "partial",
   "theorems": [
    "C37_consistent_partial",
    "C37_untouched_partial",
    "C37_system_partial",
    "C37_outputs_refuted",
    "C37_dimension_refuted"
   ],
   "note": "Full statement (pruning keeps every consistent state and every transition between consistent states) proved for components in which a location with an input towards an inconsistent location has no outputs (consistent_partial); without that condition locations that cannot fail are untouched (untouched_partial); whole systems keep all behaviour when pruned at their own dimension (system_partial). Refuted: outputs_refuted (predt_of_all_outputs is called with the target of the edge instead of the source, so a consistent initial location is removed) and dimension_refuted (prune queries pass the clock count, not the dimension). edbm's predt is assumed sound."
  },
  {
   "property": "C38",
   "status": "proved",
   "theorems": [
    "C38_loaded",
    "C38_lines",
    "C38_tables",
    "C38_integers"
   ],
   "note": "Every table read from a text survives, in any iteration order; integer variables are not written (the property speaks of clocks). Every declared integer has the value 0 (C38_integers)."
  },
  {
   "property": "C39",
   "status": "partial",
   "theorems": [
    "C39_internal_partial",
    "C39_shown_partial",
    "C39_joined_names_refuted"
   ],
   "note": "Proved for names without the reserved marks (partial); identifiers that contain them can collide (refuted)."
  },
  {
   "property": "C40",
   "status": "partial",
   "theorems": [
    "C40_decoded_partial",
    "C40_errors_partial",
    "C40_ambiguous",
    "C40_path_partial",
    "C40_numbers",
    "C40_unreachable_partial",
    "C40_unknown_component_refuted",
    "C40_sums_refuted",
    "C40_or_refuted",
    "C40_special_refuted",
    "C40_copies_refuted"
   ],
   "note": "The decoded state contains exactly the described states, has wildcards exactly where no location is given, and errors are characterised exactly; whole reachability queries are linked to runs, for exact zones and for zones enlarged beyond the bounds only (then with targets that compare clocks with numbers, C40_numbers). Partial: disjunctions, unknown components (silently ignored), sums of more than two summands, copies of clockless components and special locations of quotients are excluded, each with a refutation."
  },
  {
   "property": "C41",
   "status": "partial",
   "theorems": [
    "C41_read_partial",
    "C41_spacing_refuted"
   ],
   "note": "Texts with one space after each comma of the component list are read exactly; without it names are run together, and IO lines for 'system' are accepted (refuted)."
  },
  {
   "property": "C42",
   "status": "proved",
   "theorems": [
    "C42_answered",
    "C42_isolated",
    "C42_panic_contained"
   ],
   "note": "Handlers interleave at their critical sections; answers under honest hashes equal those of a fresh server. Not modelled: process aborts (stack overflow, out of memory), and the JSON/XML decoders, which are a quantified function."
  },
  {
   "property": "C43",
   "status": "proved",
   "theorems": [
    "C43_transitions_stay_inside"
   ],
   "note": "Every built system, by induction on how it was built."
  },
  {
   "property": "C44",
   "status": "proved",
   "theorems": [
    "C44_locations",
    "C44_transitions"
   ],
   "note": "Guards and invariants in the exact fragment of C01, distinct location names, ordinary locations."
  },
  {
   "property": "C45",
   "status": "partial",
   "theorems": [
    "C45_queries_partial",
    "C45_states",
    "C45_save_as_refuted",
    "C45_save_as_compound_refuted",
    "C45_disjunction_refuted",
    "C45_negation_refuted",
    "C45_double_negation_refuted",
    "C45_not_name_refuted",
    "C45_spacing",
    "C45_condition_written",
    "C45_written",
    "C45_arrow_refuted"
   ],
   "note": "Query lists without save-as names and with states without disjunction or negation read back as themselves. Refuted: a save-as name is printed in the wrong order, so component and name swap or the text does not parse; disjunctions of states, every negated state and component names starting with 'not' abort; two negations are read as one. Props/Spacing.v: queries written by hand in any spacing, also with save-as names, are read as meant (C45_written); the states of a reachability query may be written by hand too, with sums and differences, '&&' or 'and' without parentheses, and parentheses anywhere (C45_condition_written). Refuted: the white space before '->' may be left out (C45_arrow_refuted)."
  },
  {
   "property": "C46",
   "status": "partial",
   "theorems": [
    "C46_same_partial",
    "C46_quotient_refuted",
    "C46_unused_refuted",
    "C46_two_partial",
    "C46_refinement_partial"
   ],
   "note": "The reduced system is timed bisimilar to the unreduced one (same location names, delays and actions) for plain location names, when no removed clock is mentioned by a guard or invariant and clocks are merged only in systems without quotients. For the two systems of a refinement both are bisimilar to the unreduced ones, quotients included, and refinement holds after the reduction iff it holds without it, when no removed clock is mentioned by a guard or invariant. Refuted without the condition on mentioned clocks (x >= 0 becomes false) and, for one system, with quotients (the quotient clock is aliased). Missing: merging of other clocks in a single system with quotients."
  },
  {
   "property": "C47",
   "status": "partial",
   "theorems": [
    "C47_written_partial",
    "C47_loaded_partial",
    "C47_dangling_refuted",
    "C47_reload_refuted",
    "C47_marks"
   ],
   "note": "Holds when guards need no parentheses, updates are non-empty with foldable constants already folded and non-negative, and action names have no ! or ?; refuted for parenthesised guards and negative constant updates. Integer variables are not written. Components with an edge to a missing location load but cannot be written (C47_dangling_refuted)."
  },
  {
   "property": "C48",
   "status": "partial",
   "theorems": [
    "C48_component_partial",
    "C48_system_refuted"
   ],
   "note": "Pruning a component removes every way into a declared inconsistent location, for all components (component_partial). Refuted for systems: combine_components maps the type Inconsistent to Normal before pruning, so prune_system never prunes anything (system_refuted)."
  },
  {
   "property": "C49",
   "status": "partial",
   "theorems": [
    "C49_composition",
    "C49_conjunction",
    "C49_quotient",
    "C49_operand_rejected",
    "C49_every_part",
    "C49_operands_checked_partial",
    "C49_nested_quotient_refuted"
   ],
   "note": "Full: the three acceptance conditions as equivalences (C49_composition, C49_conjunction, C49_quotient), failures of operands (C49_operand_rejected), and the conditions at every depth of an accepted system (C49_every_part). What passing the checks means (C49_operands_checked_partial) inherits the limits of C16 and C18: divisors without quotients, no reserved action names, single outputs for survival. Refuted: an operand of an accepted quotient is deterministic also if it has a quotient in a divisor (C49_nested_quotient_refuted)."
  },
  {
   "property": "C50",
   "status": "partial",
   "theorems": [
    "C50_refines_partial",
    "C50_not_refines_partial",
    "C50_deterministic_partial",
    "C50_consistent_partial",
    "C50_component_partial",
    "C50_unreachable_partial",
    "C50_path_partial",
    "C50_named_two",
    "C50_named_one",
    "C50_rejected",
    "C50_batch",
    "C50_batch_independent",
    "C50_batch_lost_refuted"
   ],
   "note": "Proved end to end for refinement (success, and failures that are about behaviour), determinism, consistency, get-component and reachability, with and without clock reduction, on top of C13/C14/C16/C18/C31/C40/C46. Assumptions kept in the statements: what extrapolation and hash orders may do, loadable components (C28), not both sides of a refinement contain a quotient, clocks reported unused are not mentioned in guards (C27), nothing merged when a single system is reduced, and the gaps and initial-state conditions C13 needs. Batches are proved exactly (C50_batch); refuted: a rejected query, or saving into an XML project, loses the answers to all earlier queries of the command line. Not covered: prune queries end to end."
  },
  {
   "property": "C51",
   "status": "partial",
   "theorems": [
    "C51_declarations",
    "C51_system_partial",
    "C51_document_partial",
    "C51_kind_refuted",
    "C51_label_refuted",
    "C51_ids_refuted",
    "C51_ends_refuted",
    "C51_layout_refuted"
   ],
   "note": "Proved for documents whose declaration lines are clock lists, comments or empty and whose expressions can be printed without parentheses (C51_document_partial), with either kind of line ends and any other elements in between; C51_declarations and C51_system_partial are the parts. Refuted parts: other layouts of declarations (tabs, indentation, '; ' between declarations) abort (C51_layout_refuted); a file called something.xml is never recognised as an XML project (C51_kind_refuted); the first label of a location is taken as its invariant whatever its kind (C51_label_refuted); all edges have the id NotImplemented (C51_ids_refuted); an IO line without actions and with Windows line ends aborts (C51_ends_refuted). Trusted: elementtree turns the text into the element tree."
  },
  {
   "property": "C52",
   "status": "partial",
   "theorems": [
    "C52_json_history",
    "C52_json_files",
    "C52_restart_partial",
    "C52_xml",
    "C52_server",
    "C52_recipe",
    "C52_save",
    "C52_loadable",
    "C52_restart_refuted"
   ],
   "note": "The history theorem is an equivalence: the operations go through with these components if and only if the specification says so. Refuted in full: a component saved under a name with declared inputs is returned as saved, and accepts its declared inputs only after a restart; restart is proved for components that are written faithfully (see C47)."
  },
  {
   "property": "C53",
   "status": "partial",
   "theorems": [
    "C53_reply",
    "C53_model_one_partial",
    "C53_model_two_partial",
    "C53_refinement_partial",
    "C53_determinism_partial",
    "C53_consistency_partial",
    "C53_always_two_partial",
    "C53_always_one_partial",
    "C53_false_alarm_refuted",
    "C53_path_partial",
    "C53_always_reach_partial"
   ],
   "note": "The reply agrees with the answer (C53_reply, every query). For exact zones, and for zones enlarged only beyond the maximum bounds of components that compare clocks with literal numbers (then up to valuations the system cannot tell apart): failures of models, refinement, determinism and consistency are true of the named systems (partial: no merged clocks for one system, quotients not on both sides of a refinement, refinement with upper-bound invariants). C53_path_partial: the path in a reply is a run, step by step (upper-bound invariants, states as in C40). A reply can always be built (C53_always_*). C53_false_alarm_refuted: a reported inconsistency does not mean that the component cannot survive."
  },
  {
   "property": "C54",
   "status": "proved",
   "theorems": [
    "C54_determinism",
    "C54_consistency",
    "C54_refinement",
    "C54_reachability",
    "C54_analysis",
    "C54_saving",
    "C54_query",
    "C54_command_line",
    "C54_classical",
    "C54_needs_extrapolation"
   ],
   "note": "Determinism, consistency and refinement checks end with an answer, reachability, clock analysis and saving end, and so do all queries (also those that prune) and command lines, if extrapolation leaves finitely many zones per location; the classical extrapolation (closed matrices, maximum bounds of the locations) is modelled and proved to do so and to stay within the bounds (C54_classical), and without one a check can go on forever (C54_needs_extrapolation). Trusted: that edbm computes this extrapolation."
  },
  {
   "property": "C55",
   "status": "partial",
   "theorems": [
    "C55_printed",
    "C55_files",
    "C55_refines_partial",
    "C55_deterministic_partial",
    "C55_text",
    "C55_project_queries_refuted",
    "C55_other_queries_refuted",
    "C55_project_text",
    "C55_options_refuted",
    "C55_line_refines_partial",
    "C55_line_not_refines_partial",
    "C55_line_deterministic_partial",
    "C55_line_not_deterministic_partial",
    "C55_line_consistent_partial",
    "C55_line_not_consistent_partial",
    "C55_line_reachable_partial",
    "C55_line_unreachable_partial"
   ],
   "note": "Full claim proved as an equivalence (what is printed, C55_printed) with the files afterwards (C55_files). What each line says about the files, for every query before the first one that creates a component (Props/Lines.v: refinement, determinism and consistency satisfied or not, reachability satisfied or not); the _partial theorems inherit the assumptions of C50 and of sound files. Lines after a component is created are in C68, the texts below a line in C69. Refuted: project queries can be run, other queries of a project do not matter, all options work."
  },
  {
   "property": "C56",
   "status": "partial",
   "theorems": [
    "C56_drawable",
    "C56_all_placed",
    "C56_inside_partial",
    "C56_scaled_partial",
    "C56_single_refuted",
    "C56_saved"
   ],
   "note": "C56_drawable, C56_all_placed and C56_saved hold in full. The places are inside the frame and in order if the nodes do not all share a coordinate (partial); otherwise they are not numbers (refuted). Coordinates are rationals, without the rounding of f32."
  },
  {
   "property": "C57",
   "status": "proved",
   "theorems": [
    "C57_below_left",
    "C57_below_right",
    "C57_greatest",
    "C57_conjunction",
    "C57_acceptance_needed"
   ],
   "note": "Semantic refinement of the systems the operators build. The operands have clocks of their own, as the tool numbers them (at most one contains a quotient); the conjunction has an initial state. C57_acceptance_needed shows that the assumption on inputs is needed."
  },
  {
   "property": "C58",
   "status": "proved",
   "theorems": [
    "C58_replace_left",
    "C58_replace_both"
   ],
   "note": "The additional outputs of the refinement are no actions of the other part; all parts can start."
  },
  {
   "property": "C59",
   "status": "proved",
   "theorems": [
    "C59_quotient_suffices",
    "C59_quotient_weakest"
   ],
   "note": "Both directions of the adjunction, with the assumptions of the statement; X has no inputs but those of T and outputs of S."
  },
  {
   "property": "C60",
   "status": "proved",
   "theorems": [
    "C60_conjunction_order",
    "C60_composition_order",
    "C60_conjunction_grouping",
    "C60_composition_grouping"
   ],
   "note": "Each side refines the other, if it has an initial state."
  },
  {
   "property": "C61",
   "status": "proved",
   "theorems": [
    "C61_left",
    "C61_right",
    "C61_again"
   ],
   "note": "same_behaviour (C46) between the systems of names_one and names_two; loadable: components as the loaders provide them (C28)."
  },
  {
   "property": "C62",
   "status": "proved",
   "theorems": [
    "C62_reflexive",
    "C62_transitive",
    "C62_conjunction",
    "C62_composition",
    "C62_quotient",
    "C62_order",
    "C62_grouping",
    "C62_answers_reflexive",
    "C62_answers_transitive",
    "C62_answers_conjunction",
    "C62_answers_composition",
    "C62_answers_quotient",
    "C62_answers_order",
    "C62_answers_grouping"
   ],
   "note": "The C62_answers theorems assume what C50 assumes of each query (records trusted_yes, trusted_no) and the side conditions of C57-C60; at most one operand contains a quotient."
  },
  {
   "property": "C63",
   "status": "proved",
   "theorems": [
    "C63_loadable",
    "C63_usable",
    "C63_left",
    "C63_right",
    "C63_equal",
    "C63_elsewhere",
    "C63_answers_left",
    "C63_answers_right",
    "C63_answers_equal",
    "C63_lost_actions"
   ],
   "note": "The record created lists what is assumed of the get-component query (as in C47/C50): fair choices, names that stay apart, at most one quotient, a name the expression does not mention, inputs and outputs apart, every action happens. C63_lost_actions shows the last is needed. The created component is as in the loader's memory; for reading it back from its file see C47, C31."
  },
  {
   "property": "C64",
   "status": "proved",
   "theorems": [
    "C64_conjunction",
    "C64_composition",
    "C64_quotient",
    "C64_refines",
    "C64_inside",
    "C64_created",
    "C64_created_refines",
    "C64_created_answers"
   ],
   "note": "Bisimilarity is stated in Spec/SubstSpec.v (same actions, related initial states, invariants, delays and moves matched both ways). Expressions in which two operands of one operator both contain quotients are excluded: all quotients of a query share one clock."
  },
  {
   "property": "C65",
   "status": "proved",
   "theorems": [
    "C65_bisimilar",
    "C65_refines",
    "C65_answers"
   ],
   "note": "Chains of rearrangements go through expressions that are legal themselves: (A && B) && C can be legal although B && C is not (conjunction intersects alphabets)."
  },
  {
   "property": "C66",
   "status": "partial",
   "theorems": [
    "C66_not_deterministic_partial",
    "C66_consistent_partial",
    "C66_not_consistent_partial",
    "C66_path_partial",
    "C66_unreachable_partial",
    "C66_offered_refuted",
    "C66_document",
    "C66_components",
    "C66_query",
    "C66_refines_partial",
    "C66_not_refines_partial",
    "C66_deterministic_partial",
    "C66_simulation_partial",
    "C66_starts_partial",
    "C66_continues_partial",
    "C66_no_room",
    "C66_runs"
   ],
   "note": "Handlers of queries and simulations over the server of C42, with decoding of JSON and XML components: refinement, determinism, consistency and reachability (Props/Handle.v, Props/Clients.v). XML documents as in C51 are sound (C66_document). Refuted: a client that sends back a decision it was offered, when two outputs of one name leave the location, is answered with an internal error (C66_offered_refuted). Missing (hence _partial): what C30, C36, C40, C50 and C53 leave out (actions without a name, gaps in invariants)."
  },
  {
   "property": "C67",
   "status": "partial",
   "theorems": [
    "C67_moments",
    "C67_nothing",
    "C67_files",
    "C67_others",
    "C67_broken",
    "C67_lost_refuted",
    "C67_silent_refuted"
   ],
   "note": "At every point of a command on a JSON project the folder holds what the queries done so far leave, apart from the one file being written (exactly these states, C67_moments); later commands that do not need that file before it is made anew print the same; replaced components can be lost and panicking commands keep earlier components (both by a witness, as claimed)."
  },
  {
   "property": "C68",
   "status": "partial",
   "theorems": [
    "C68_loadable",
    "C68_unchanged",
    "C68_stands",
    "C68_refines",
    "C68_answers",
    "C68_settled",
    "C68_command_partial",
    "C68_sent_partial",
    "C68_later_partial",
    "C68_parentheses_refuted",
    "C68_sign_refuted",
    "C68_later_no_partial"
   ],
   "note": "Proved for created components whose guards, invariants and updates are written so that they are read back (writable), and which are not made to accept declared inputs they do not accept already (settled). The full statement is refuted: unions of intersections are read back with another meaning (C68_parentheses_refuted) and negative bounds of differences cannot be read back at all (C68_sign_refuted). Props/KeepMore.v: what a later command denies of the created component does not hold of its expression (C68_later_no_partial, for the answers that name a behaviour)."
  },
  {
   "property": "C69",
   "status": "partial",
   "theorems": [
    "C69_lines",
    "C69_reason_partial",
    "C69_path_partial",
    "C69_always_partial",
    "C69_false_alarm_refuted"
   ],
   "note": "Model/Print.v adds the texts below the verdict to the command line of C55. C69_lines: for every command whose lines are printed, the first lines are those of C55 and only failed refinements and reachable states have more. C69_reason_partial: the sentence below a failed refinement is one of those in Spec/PrintSpec.v and true of the two systems (or, if clocks were removed, of systems that behave as they do), under the assumptions of C53_refinement_partial. C69_path_partial: the lines below a reachable state are the steps of a run, under the assumptions of C40_path_partial. C69_always_partial: the lines can always be made. C69_false_alarm_refuted: a part that is called inconsistent need not be (C53). How Rust shows a set of actions is a parameter."
  },
  {
   "property": "C70",
   "status": "proved",
   "theorems": [
    "C70_same_path",
    "C70_every_listing",
    "C70_alphabetical"
   ],
   "note": "The answer of the search is the same for every listing of the actions (C70_same_path, C70_every_listing); the order is alphabetical, shown by the equality with the search that goes through the increasing listing (C70_alphabetical)."
  },
  {
   "property": "C71",
   "status": "partial",
   "theorems": [
    "C71_refinement_partial",
    "C71_reachability_partial",
    "C71_from_partial",
    "C71_determinism_partial",
    "C71_exact_partial",
    "C71_order_refuted",
    "C71_single_output_refuted",
    "C71_closed_partial"
   ],
   "note": "Refuted for consistency, and for refinements of systems that are checked for it: the verdict depends on the order of the outputs (C71_order_refuted) and, with at most one output in every location, on the order of the inputs (C71_single_output_refuted). Proved: a refinement that is confirmed is not denied with a behaviour, under the assumptions of C50 (C71_refinement_partial); a state that is reached is not called unreachable, without a start state (C71_reachability_partial) and with one if the run that finds it keeps zones exact (C71_from_partial); determinism, without removal of clocks, if the second run enlarges zones no more than the first (C71_determinism_partial), equal verdicts if zones are exact (C71_exact_partial). Without inputs and with at most one output in every location the least consistency check does not depend on orders (C71_closed_partial). That the path is the same is C70."
  },
  {
   "property": "C72",
   "status": "partial",
   "theorems": [
    "C72_created_partial",
    "C72_enabled_partial",
    "C72_read_again_partial",
    "C72_loaded_partial",
    "C72_enabled_refuted",
    "C72_step_partial",
    "C72_quotient_refuted",
    "C72_shown_partial",
    "C72_named_partial",
    "C72_path_partial"
   ],
   "note": "Refuted for the edges that are added for missing inputs (C72_enabled_refuted: underscores in names of locations and inputs) and for steps of quotients (C72_quotient_refuted). Proved: created components, whole or pruned (C72_created_partial); added edges if no location has an underscore in its name and no edge of the user is called input_... (C72_enabled_partial, C72_loaded_partial), and a created component that is read again (C72_read_again_partial); in systems without quotients a step from ordinary locations is known from its identifier (C72_step_partial) and from the edges shown with the instances that take them (C72_shown_partial, for systems of queries C72_named_partial), and so is a whole path from its start (C72_path_partial)."
  }
 ]
}