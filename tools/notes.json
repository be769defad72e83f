{
 "C01": {
  "status": "partial",
  "note": "Exact on guards whose comparison sides are linear sums; basic comparisons never error. Refuted in general: nested subtraction is re-associated. The conjunction built from a list of guards holds exactly where all of them hold (C01_conjunction), but that of no guards holds nowhere instead of everywhere (C01_no_conjunction_refuted)."
 },
 "C02": {
  "status": "partial",
  "note": "Linear sums and closed expressions keep their value; refuted for x - 5 + 3. Products, quotients and remainders of clocks are reported (C02_clock_products)."
 },
 "C03": {
  "note": "All update lists assigning naturals to real clocks."
 },
 "C04": {
  "status": "partial",
  "note": "Exact without conflicting assignments to one clock; refuted with x := 1, x := 2."
 },
 "C05": {
  "note": ""
 },
 "C06": {
  "status": "proved",
  "note": "Exact as stated. C06_entry_against_invariant_refuted shows the consequence of delaying before checking a lower-bound invariant; C06_successor_standard shows it agrees with the usual semantics for upper-bound invariants."
 },
 "C07": {
  "note": "Every conjunction, location pair and declared action."
 },
 "C08": {
  "note": "Every composition, location pair and declared action."
 },
 "C09": {
  "status": "partial",
  "note": "Alphabets of every operator exact. Disjointness of nested systems proved when no divisor contains a quotient and no component uses a reserved name; refuted for T \\\\ (M \\\\ M')."
 },
 "C10": {
  "note": "Exact characterisation of every offered transition, assuming the clock discipline clocks_ok."
 },
 "C43": {
  "note": "Every built system, by induction on how it was built."
 },
 "C16": {
  "status": "partial",
  "note": "Whole composite system, every iteration order and extensive extrapolation, when divisors of quotients contain no quotient. Refuted with a quotient inside a divisor (the new input is offered twice)."
 },
 "C17": {
  "status": "partial",
  "note": "A failure exhibits an edge-reachable location with two jointly possible transitions; refuted that the clock values are reachable (the search starts from all clock values)."
 },
 "C18": {
  "status": "partial",
  "note": "Symbolic survival set for systems with at most one output transition per location; refuted in general: a state whose branch failed stays in the passed list and later counts as success."
 },
 "C19": {
  "status": "partial",
  "note": "Closed symbolic set; progress shown except in states with a possible input. Refuted there: the delay test looks at the last passed state, not at the current one."
 },
 "C11": {
  "status": "partial",
  "note": "Proved for invariants that only bound clocks from above: any reported path can be executed; it ends in the target zone if zones are exact or enlarged only beyond the bounds of the system and the target, which the classical extrapolation does for targets that compare clocks with numbers (C11_classical); then reachability from the initial state is decided (C11_decided_partial). Refuted without these restrictions: C11_false_path_refuted (a path that cannot be executed), C11_abort_refuted (panic while building the path), C11_difference_refuted (a target comparing two clocks is reported reachable though no run reaches it)."
 },
 "C12": {
  "status": "partial",
  "note": "Proved for the initial state as start (C12_from_initial) and for start zones containing their delay successors; refuted for other explicit start zones (C12_start_not_delayed_refuted). C12_decided_partial: with the classical extrapolation the search ends and its answer is right from the initial state, for upper-bound invariants and targets that compare clocks with numbers."
 },
 "C34": {
  "status": "partial",
  "note": "Exact wildcard match, symmetry and self-match proved for locations without the quotient's special locations; those do not match themselves (C34_self_refuted)."
 },
 "C13": {
  "status": "partial",
  "note": "Success implies a refinement relation on concrete timed states for separate clocks when the right's invariants have no gaps and its initial invariant lasts as long as the left's. Refuted without either (C13_gap_refuted, C13_initial_delay_refuted)."
 },
 "C14": {
  "status": "partial",
  "note": "With upper-bound invariants, and zones that are exact or enlarged only beyond the maximum bounds (on components for which these suffice), 'cannot match' names a jointly reachable pair (up to valuations that cannot be told apart) with an unmatched action, and no refinement exists. 'Cuts delays' excludes refinement when the right's guards never enter a violated invariant; refuted otherwise (C14_cuts_delays_refuted). C14_decided_partial: with the classical extrapolation the check ends and its answer is right under the conditions of C13 and C14."
 },
 "C15": {
  "status": "proved",
  "note": "Every outcome of every check; missing actions as self-loops."
 },
 "C21": {
  "note": "Every sequence of put and pop on the waiting list, every sequence of puts on both passed lists."
 },
 "C20": {
  "note": "Completeness and exactness of added edges for all components with distinct location names, supported guards and non-conflicting resets, also at the compiled system (C20_system_accepts_partial). False for wildcard edges (C20_star_refuted) and for two resets of one clock (C20_conflict_refuted). edbm minimal_constraints is any function that describes the same set."
 },
 "C22": {
  "note": "Every federation without reference-only constraints and with named clocks; the guard denotes the set and applying it intersects with exactly the set."
 },
 "C44": {
  "note": "Guards and invariants in the exact fragment of C01, distinct location names, ordinary locations."
 },
 "C36": {
  "note": "Offered decisions are proved exact and complete for every state of every built system. That resolving never aborts is proved for simulations of deterministic systems with upper-bound invariants and refuted outside: ambiguous outputs, and lower-bound invariants even when the determinism check succeeds."
 },
 "C25": {
  "note": "Histories of any length and every interleaving of handlers; the lru crate is modelled as a recency list."
 },
 "C26": {
  "note": "Includes that tokens do repeat beyond 2^32, and the order without interleaving."
 },
 "C42": {
  "note": "Handlers interleave at their critical sections; answers under honest hashes equal those of a fresh server. Not modelled: process aborts (stack overflow, out of memory), and the JSON/XML decoders, which are a quantified function."
 },
 "C35": {
  "note": "Proved for identifiers that say something about every component (in particular for every transition offered by conjunctions and compositions whose composed parts take part in the action) and for splitting whole paths. Refuted in general: extracting the leaves aborts on a quotient's divisor-only transitions, and components of a composed part that stays put are left out, which shifts later components."
 },
 "C33": {
  "note": "Proved for constants written as a single number, with the purpose of the bounds (valuations beyond them are not told apart) and for systems. Refuted for compound constants: x <= 5 + 5 leaves the bound of x at 0."
 },
 "C23": {
  "note": "Every guard with proper names and non-negative i32 constants is read back, and as itself exactly when it needs no parentheses (nesting of products under sums and of 'or' under 'and'); pure conjunctions and pure disjunctions keep their meaning; single-zone federations and unions of one-constraint zones reload as themselves; updates reload. Reading any text ends. The full claim is refuted three ways: a union of two zones is saved without parentheses and changes meaning because 'or' binds tighter for the reader; negative constants are written but do not parse; parenthesised subtraction reassociates. Props/Spacing.v: names are exactly letter-led words of letters, digits and underscores; white space around a guard and a semicolon behind it, spaces, ':=' and a final comma in updates do not matter; an empty guard is true and an empty update changes nothing. Props/Written.v: however a guard or an update is written (numbers, names, operators by precedence and left grouping, extra parentheses, any white space), it is read as the one that is meant, so no text means two guards (C23_written, C23_one_meaning, C23_updates_written)."
 },
 "C24": {
  "note": "Every system expression with proper names (all the parser can produce, C24_user_text) reads back as itself, also with as few parentheses as precedence (quotient < composition < conjunction, left associative) allows. Text after a complete system expression is ignored (C24_rest_ignored). Props/Spacing.v: however an expression is written (any white space, extra parentheses, either quotient sign), it is read as the expression that precedence and left grouping give, so no text means two expressions."
 },
 "C45": {
  "note": "Query lists without save-as names and with states without disjunction or negation read back as themselves. Refuted: a save-as name is printed in the wrong order, so component and name swap or the text does not parse; disjunctions of states, every negated state and component names starting with 'not' abort; two negations are read as one. Props/Spacing.v: queries written by hand in any spacing, also with save-as names, are read as meant (C45_written); the states of a reachability query may be written by hand too, with sums and differences, '&&' or 'and' without parentheses, and parentheses anywhere (C45_condition_written). Refuted: the white space before '->' may be left out (C45_arrow_refuted)."
 },
 "C39": {
  "note": "Proved for names without the reserved marks (partial); identifiers that contain them can collide (refuted)."
 },
 "C38": {
  "note": "Every table read from a text survives, in any iteration order; integer variables are not written (the property speaks of clocks). Every declared integer has the value 0 (C38_integers)."
 },
 "C41": {
  "note": "Texts with one space after each comma of the component list are read exactly; without it names are run together, and IO lines for 'system' are accepted (refuted)."
 },
 "C47": {
  "note": "Holds when guards need no parentheses, updates are non-empty with foldable constants already folded and non-negative, and action names have no ! or ?; refuted for parenthesised guards and negative constant updates. Integer variables are not written. Components with an edge to a missing location load but cannot be written (C47_dangling_refuted)."
 },
 "C29": {
  "note": "Numbering of one system and of the two systems of a refinement, and the clock discipline of the compiled systems, are proved for clock tables without repeated names; refuted when a file declares a clock twice. After the reduction of one system the numbers are again exactly 1..dim' with the quotient clock last, provided the quotient clock is not merged into a lower clock; refuted without that condition. After the reduction of the two systems of a refinement (C29_reduced_two) the same holds without that condition, for descriptions of federations that only mention clocks the federation depends on; C29_reduced_two_partial needs only that no replacement is reported for both systems."
 },
 "C27": {
  "note": "Proved for systems whose location names do not contain the characters used to join names; the analysis is proved to end. Refuted in general: such names hide a location and its resets from the analysis."
 },
 "C28": {
  "note": "Proved (as independence of the truth of guards and invariants from the clock) for systems whose location names do not contain the characters used to join names. Refuted in general: such names hide a location and its invariant."
 },
 "C46": {
  "note": "The reduced system is timed bisimilar to the unreduced one (same location names, delays and actions) for plain location names, when no removed clock is mentioned by a guard or invariant and clocks are merged only in systems without quotients. For the two systems of a refinement both are bisimilar to the unreduced ones, quotients included, and refinement holds after the reduction iff it holds without it, when no removed clock is mentioned by a guard or invariant. Refuted without the condition on mentioned clocks (x >= 0 becomes false) and, for one system, with quotients (the quotient clock is aliased). Missing: merging of other clocks in a single system with quotients."
 },
 "C40": {
  "note": "The decoded state contains exactly the described states, has wildcards exactly where no location is given, and errors are characterised exactly; whole reachability queries are linked to runs, for exact zones and for zones enlarged beyond the bounds only (then with targets that compare clocks with numbers, C40_numbers). Partial: disjunctions, unknown components (silently ignored), sums of more than two summands, copies of clockless components and special locations of quotients are excluded, each with a refutation."
 },
 "C31": {
  "note": "Saving (combine_components, get_component) is proved to give exactly the locations, transitions, guards, updates and invariants of the system, and the saved component read back behaves like it, for systems with plain location names, clock names that are not numbered forms of each other, and clocks numbered 1..dim-1. Refuted without these: clock names x, x1 and x make saving abort; joined location names collide; actions that occur only on unreached locations are lost. minimal_constraints is any correct description; hash orders are quantified."
 },
 "C32": {
  "note": "Proved for every iteration order when no clock is named like another with a number appended; refuted otherwise: with x, x1 in one part and x in the next the clock x1 is lost for every order."
 },
 "C37": {
  "note": "Full statement (pruning keeps every consistent state and every transition between consistent states) proved for components in which a location with an input towards an inconsistent location has no outputs (consistent_partial); without that condition locations that cannot fail are untouched (untouched_partial); whole systems keep all behaviour when pruned at their own dimension (system_partial). Refuted: outputs_refuted (predt_of_all_outputs is called with the target of the edge instead of the source, so a consistent initial location is removed) and dimension_refuted (prune queries pass the clock count, not the dimension). edbm's predt is assumed sound."
 },
 "C48": {
  "note": "Pruning a component removes every way into a declared inconsistent location, for all components (component_partial). Refuted for systems: combine_components maps the type Inconsistent to Normal before pruning, so prune_system never prunes anything (system_refuted)."
 },
 "C30": {
  "note": "Every location, zone, state and decision offered by a simulation is read back from its message as it was (numbers fitting u32, distinct instance numbers and clock names, which compiled queries provide), and a step taken with the returned message answers as the step taken with the decision itself. Refuted as stated: an edge with an empty synchronisation gives an action with the empty name, whose decision is offered but aborts the server when sent back; the partial theorems exclude that name."
 },
 "C49": {
  "note": "Full: the three acceptance conditions as equivalences (C49_composition, C49_conjunction, C49_quotient), failures of operands (C49_operand_rejected), and the conditions at every depth of an accepted system (C49_every_part). What passing the checks means (C49_operands_checked_partial) inherits the limits of C16 and C18: divisors without quotients, no reserved action names, single outputs for survival. Refuted: an operand of an accepted quotient is deterministic also if it has a quotient in a divisor (C49_nested_quotient_refuted)."
 },
 "C50": {
  "note": "Proved end to end for refinement (success, and failures that are about behaviour), determinism, consistency, get-component and reachability, with and without clock reduction, on top of C13/C14/C16/C18/C31/C40/C46. Assumptions kept in the statements: what extrapolation and hash orders may do, loadable components (C28), not both sides of a refinement contain a quotient, clocks reported unused are not mentioned in guards (C27), nothing merged when a single system is reduced, and the gaps and initial-state conditions C13 needs. Batches are proved exactly (C50_batch); refuted: a rejected query, or saving into an XML project, loses the answers to all earlier queries of the command line. Not covered: prune queries end to end."
 },
 "C51": {
  "note": "Proved for documents whose declaration lines are clock lists, comments or empty and whose expressions can be printed without parentheses (C51_document_partial), with either kind of line ends and any other elements in between; C51_declarations and C51_system_partial are the parts. Refuted parts: other layouts of declarations (tabs, indentation, '; ' between declarations) abort (C51_layout_refuted); a file called something.xml is never recognised as an XML project (C51_kind_refuted); the first label of a location is taken as its invariant whatever its kind (C51_label_refuted); all edges have the id NotImplemented (C51_ids_refuted); an IO line without actions and with Windows line ends aborts (C51_ends_refuted). Trusted: elementtree turns the text into the element tree."
 },
 "C52": {
  "note": "The history theorem is an equivalence: the operations go through with these components if and only if the specification says so. Refuted in full: a component saved under a name with declared inputs is returned as saved, and accepts its declared inputs only after a restart; restart is proved for components that are written faithfully (see C47)."
 },
 "C53": {
  "note": "The reply agrees with the answer (C53_reply, every query). For exact zones, and for zones enlarged only beyond the maximum bounds of components that compare clocks with literal numbers (then up to valuations the system cannot tell apart): failures of models, refinement, determinism and consistency are true of the named systems (partial: no merged clocks for one system, quotients not on both sides of a refinement, refinement with upper-bound invariants). C53_path_partial: the path in a reply is a run, step by step (upper-bound invariants, states as in C40). A reply can always be built (C53_always_*). C53_false_alarm_refuted: a reported inconsistency does not mean that the component cannot survive."
 },
 "C54": {
  "note": "Determinism, consistency and refinement checks end with an answer, reachability, clock analysis and saving end, and so do all queries (also those that prune) and command lines, if extrapolation leaves finitely many zones per location; the classical extrapolation (closed matrices, maximum bounds of the locations) is modelled and proved to do so and to stay within the bounds (C54_classical), and without one a check can go on forever (C54_needs_extrapolation). Trusted: that edbm computes this extrapolation."
 },
 "C55": {
  "note": "Full claim proved as an equivalence (what is printed, C55_printed) with the files afterwards (C55_files). What each line says about the files, for every query before the first one that creates a component (Props/Lines.v: refinement, determinism and consistency satisfied or not, reachability satisfied or not); the _partial theorems inherit the assumptions of C50 and of sound files. Lines after a component is created are in C68, the texts below a line in C69. Refuted: project queries can be run, other queries of a project do not matter, all options work."
 },
 "C56": {
  "note": "C56_drawable, C56_all_placed and C56_saved hold in full. The places are inside the frame and in order if the nodes do not all share a coordinate (partial); otherwise they are not numbers (refuted). Coordinates are rationals, without the rounding of f32."
 },
 "C57": {
  "note": "Semantic refinement of the systems the operators build. The operands have clocks of their own, as the tool numbers them (at most one contains a quotient); the conjunction has an initial state. C57_acceptance_needed shows that the assumption on inputs is needed."
 },
 "C58": {
  "note": "The additional outputs of the refinement are no actions of the other part; all parts can start."
 },
 "C59": {
  "note": "Both directions of the adjunction, with the assumptions of the statement; X has no inputs but those of T and outputs of S."
 },
 "C60": {
  "note": "Each side refines the other, if it has an initial state."
 },
 "C61": {
  "note": "same_behaviour (C46) between the systems of names_one and names_two; loadable: components as the loaders provide them (C28)."
 },
 "C62": {
  "note": "The C62_answers theorems assume what C50 assumes of each query (records trusted_yes, trusted_no) and the side conditions of C57-C60; at most one operand contains a quotient."
 },
 "C63": {
  "note": "The record created lists what is assumed of the get-component query (as in C47/C50): fair choices, names that stay apart, at most one quotient, a name the expression does not mention, inputs and outputs apart, every action happens. C63_lost_actions shows the last is needed. The created component is as in the loader's memory; for reading it back from its file see C47, C31."
 },
 "C64": {
  "note": "Bisimilarity is stated in Spec/SubstSpec.v (same actions, related initial states, invariants, delays and moves matched both ways). Expressions in which two operands of one operator both contain quotients are excluded: all quotients of a query share one clock."
 },
 "C65": {
  "note": "Chains of rearrangements go through expressions that are legal themselves: (A && B) && C can be legal although B && C is not (conjunction intersects alphabets)."
 },
 "C66": {
  "note": "Handlers of queries and simulations over the server of C42, with decoding of JSON and XML components: refinement, determinism, consistency and reachability (Props/Handle.v, Props/Clients.v). XML documents as in C51 are sound (C66_document). Refuted: a client that sends back a decision it was offered, when two outputs of one name leave the location, is answered with an internal error (C66_offered_refuted). Missing (hence _partial): what C30, C36, C40, C50 and C53 leave out (actions without a name, gaps in invariants)."
 },
 "C67": {
  "note": "At every point of a command on a JSON project the folder holds what the queries done so far leave, apart from the one file being written (exactly these states, C67_moments); later commands that do not need that file before it is made anew print the same; replaced components can be lost and panicking commands keep earlier components (both by a witness, as claimed)."
 },
 "C68": {
  "note": "Proved for created components whose guards, invariants and updates are written so that they are read back (writable), and which are not made to accept declared inputs they do not accept already (settled). The full statement is refuted: unions of intersections are read back with another meaning (C68_parentheses_refuted) and negative bounds of differences cannot be read back at all (C68_sign_refuted). Props/KeepMore.v: what a later command denies of the created component does not hold of its expression (C68_later_no_partial, for the answers that name a behaviour)."
 },
 "C69": {
  "note": "Model/Print.v adds the texts below the verdict to the command line of C55. C69_lines: for every command whose lines are printed, the first lines are those of C55 and only failed refinements and reachable states have more. C69_reason_partial: the sentence below a failed refinement is one of those in Spec/PrintSpec.v and true of the two systems (or, if clocks were removed, of systems that behave as they do), under the assumptions of C53_refinement_partial. C69_path_partial: the lines below a reachable state are the steps of a run, under the assumptions of C40_path_partial. C69_always_partial: the lines can always be made. C69_false_alarm_refuted: a part that is called inconsistent need not be (C53). How Rust shows a set of actions is a parameter."
 },
 "C70": {
  "note": "The answer of the search is the same for every listing of the actions (C70_same_path, C70_every_listing); the order is alphabetical, shown by the equality with the search that goes through the increasing listing (C70_alphabetical)."
 },
 "C71": {
  "note": "Refuted for consistency, and for refinements of systems that are checked for it: the verdict depends on the order of the outputs (C71_order_refuted) and, with at most one output in every location, on the order of the inputs (C71_single_output_refuted). Proved: a refinement that is confirmed is not denied with a behaviour, under the assumptions of C50 (C71_refinement_partial); a state that is reached is not called unreachable, without a start state (C71_reachability_partial) and with one if the run that finds it keeps zones exact (C71_from_partial); determinism, without removal of clocks, if the second run enlarges zones no more than the first (C71_determinism_partial), equal verdicts if zones are exact (C71_exact_partial). Without inputs and with at most one output in every location the least consistency check does not depend on orders (C71_closed_partial). That the path is the same is C70."
 },
 "C72": {
  "note": "Refuted for the edges that are added for missing inputs (C72_enabled_refuted: underscores in names of locations and inputs) and for steps of quotients (C72_quotient_refuted). Proved: created components, whole or pruned (C72_created_partial); added edges if no location has an underscore in its name and no edge of the user is called input_... (C72_enabled_partial, C72_loaded_partial), and a created component that is read again (C72_read_again_partial); in systems without quotients a step from ordinary locations is known from its identifier (C72_step_partial) and from the edges shown with the instances that take them (C72_shown_partial, for systems of queries C72_named_partial), and so is a whole path from its start (C72_path_partial)."
 }
}