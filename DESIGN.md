# Formal model of Ecdar/Reveaal in Rocq (Coq 8.16.1)

The plan in section 3 was written before the proofs; the status columns are kept up to date.
`MANIFEST.json` lists the exact theorem names per property, `properties.jsonl` the properties.

## 1. Layout

```
rocq/theories/
  Fed/      zones and federations (model of the external crate `edbm`) and their correctness
  Model/    function-by-function transcription of /repo/src (definitions only, no proofs)
  Spec/     small specifications (timed semantics, refinement, ...) independent of the model's helpers
  Proofs/   lemmas
  Props/    one theorem (or a few) per property + Print Assumptions + non-vacuity Examples
tools/      scripts that regenerate _CoqProject, properties.jsonl and MANIFEST.json
seeded/     LOG.jsonl: wrong programs tried against the theorems
```

Every definition in `Model/` cites the file and lines of /repo it models.  To read a
property, read its theorem in `Props/` and the definitions of `Spec/` it mentions.

Naming: `Cnn_..._partial` proves the claim under stated conditions that the English claim
does not have; `Cnn_..._refuted` is a machine-checked counterexample showing that the claim
fails without them (the witness is a concrete model, evaluated by the kernel).

## 2. Modelling decisions

* **Panics** (`unwrap`, `expect`, `panic!`, `unreachable!`, `assert!`, index out of bounds) are explicit
  values: `res A` = `Ok a | Err e | Panic | NoFuel`, never a default.
* **Result/Option** stay data.
* **Integers.** `i32` constants are `Z` (no wrap-around) except where a property is about their
  range (user tokens wrap at 2^32; parsers reject constants outside `i32`; `u32` fields of
  messages reject larger numbers).  `usize` indices are `nat`.
* **HashMap/HashSet iteration order** is not fixed by Rust: theorems quantify over the order
  (`ord`, `cord`, `gord`, `acts`: any function returning the same elements, or any list with
  the same elements).
* **Loops without a structural measure** (state-space exploration, clock analysis, reading text) take
  fuel and return `NoFuel` when it runs out; theorems are about runs that do answer, and where
  the loop always ends this is proved (`C28_analysis_ends`, `C23_reading_ends`).
* **Federations (`edbm`).** Not in /repo (an external crate).  Modelled by a concrete,
  computable library: a federation is a finite union of conjunctions of difference constraints
  `x_i - x_j < c` / `<= c` over valuations `nat -> Q` with clock 0 = 0 and clocks non-negative.
  Operations are implemented by Fourier-Motzkin elimination and proved exact with respect to the
  set of valuations they denote.  What is trusted is that `edbm` computes the same *sets*.
* **Extrapolation** (`extrapolate_max_bounds`): a universally quantified function; theorems
  assume only that it is extensive (never removes valuations), or that it is the identity where
  exactness is needed.  C11, C14, C40, C50 and C53 hold also if it is `loosened`: each valuation it adds to a
  zone agrees with one of the zone on every clock, except clocks without a bound, and except clocks
  that are beyond their bound in both; C54 assumes that it yields finitely many zones for each
  location (`few`).  `Fed/Dbm.v` models the classical algorithm (Extra_M of Behrmann, Bouyer, Larsen,
  Pelanek: close the matrix of the zone by Floyd-Warshall, drop upper bounds beyond the maximum bounds,
  replace lower bounds beyond them) and `Model/Extrapolate.v` the bounds it is called with; both
  assumptions are proved of it (`C54_classical`, and `C11_classical` with the bounds of the target of a
  reachability query joined, `get_bounds`), so what is trusted is that `edbm`, whose source is not
  here, computes this abstraction and these bounds.  Without extrapolation
  C54 is false (`C54_needs_extrapolation`).  The bounds themselves are the model's own (C33), and the components must compare clocks
  with literal numbers only, because the bounds are wrong otherwise (`C33_compound_refuted`).
* **`minimal_constraints`**: any function that describes the same set by constraints between
  distinct clocks (`describes`); where clocks of two systems are reduced together also that it only
  mentions clocks the set depends on (`confined`: the minimal form of a canonical DBM relates no
  unconstrained clock).  **`predt`** (backwards timed predecessor): any function that
  is sound for its definition (`timed_pred`).
* **Time** is `Q`: constraints have integer constants, so emptiness over Q and R coincide;
  concrete runs in the specifications have rational delays.
* **Parsing.** The pest grammars are transcribed as PEG combinators (`Model/Peg.v`), with
  pest's ordered choice and implicit whitespace; the Pratt parser is transcribed.
* **Concurrency** (server): requests are programs of atomic steps (lock regions, fetch-and-add),
  theorems quantify over every interleaving.

## 3. Per property: what is modelled, how it is proved, result

P = proved as stated; R = the full statement is false of the code (refuted by a witness) and is
proved under the conditions in the manifest note; (p) = part proved, rest open.

| id | modelled | how | result |
|---|---|---|---|
| C01 | `Arith`/`Bool` expressions, `simplify`, `get_indices`, `apply_constraints_to_state` | semantic correctness by induction on the fragment without clocks under a right-nested subtraction/product | R |
| C02 | `simplify` and helpers | same fragment | R |
| C03 | `CompiledUpdate`, forward update | set equality against an assignment semantics | P |
| C04 | backward update, `apply_inverse` | weakest precondition | R |
| C05, C06 | transitions: allowed zone, `use_transition` | set equalities against the timed semantics | P |
| C07, C08 | conjunction, composition `next_transitions` | case analysis | P |
| C09 | alphabets of all operators | induction on how a system is built | R |
| C10 | quotient `next_transitions`, rules 1-10 | case analysis with a clock discipline | P |
| C11, C12 | reachability search | loop invariant on passed/waiting lists, against concrete runs | R |
| C13, C14 | refinement check | loop invariant; relation built from the passed list; blame traced back to joint runs | R |
| C15 | refinement preconditions | case analysis | P |
| C16, C17 | determinism exploration | induction on the exploration | R |
| C18, C19 | least / full consistency | induction on the recursive exploration | R |
| C20 | input enabler | complement semantics, lifted to compiled systems | R |
| C21 | waiting/passed lists of state pairs | induction over operation sequences | P |
| C22 | `BoolExpression::get_from_disjunction` and application | set equality | P |
| C23 | guard/update printing and the edge grammar | round trip by induction, PEG semantics | R |
| C24, C45 | query printing and the query grammar | round trip by induction | P, R |
| C25, C26, C42 | model cache, token counter, panic containment | induction over histories and interleavings | P |
| C27, C28 | clock analysis (graph, equal clocks, unused clocks) | run invariant | R |
| C29, C46 | system recipes, clock numbering, clock reduction | induction on queries; timed bisimulation | R |
| C30 | messages of the simulator, both directions | induction on systems; steps commute with the conversion | R |
| C31, C32, C47 | combining and saving components, clock maps, component files | set equalities, bisimulation, round trip | R |
| C33 | maximum bounds | induction on guards | R |
| C34, C39 | location ids, partial matching | induction on trees | R |
| C35 | transition ids, leaves | induction on trees | R |
| C36 | simulation decisions | exactness against the timed semantics | R |
| C37, C48 | pruning | invariant of the worklist | R |
| C38, C41 | declarations | round trip, reading relation | P, R |
| C40 | query states | relation between expressions and sets of states | R |
| C43, C44 | system transitions stay inside; compilation of components | induction on how systems are built | P |

| C49 | which compositions, conjunctions and quotients a recipe compiles to | induction on recipes; a nested quotient that is accepted and not deterministic | R, P |
| C50 | queries from the parsed expression to the answer, batches, saving loaders | composition of C13/C14/C16/C18/C31/C40 with the bisimulations of C46; induction on batches | R |
| C51 | XML documents as element trees; templates, declarations, system declarations, project kind | lists of lines, labels by kind, round trip of expressions | R |
| C52 | JSON, XML and server loaders over histories of look-ups and saves | invariant over operations: cache and files against what was saved; round trip of files | R |
| C53 | failure messages of queries: from the failing check through the failure description to the message | the check with reports agrees with the plain check; invariant of the search: what leads to the recorded state; induction on recipes; paths by induction on their steps | (p), R |
| C54 | the searches with a number of steps; queries and command lines | measure: zones, up to the set they denote, that are not yet covered; a finite set of regions for `few`; prune queries end because the combined component has no inconsistent location | P |
| C55 | the query command: options, projects with their queries, the loop over the queries, the printed lines | composition of C45, C50, C52, C56; induction on the queries; every line before a component is created is read back into a verdict about the files (Props/Lines.v) | R |
| C56 | created components are closed under their edges; the drawing of a component after the simulation of forces | invariant of the depth-first collection; arithmetic of the normalised coordinates | R |
| C57 | conjunctions of systems as C05-C07 build them; refinement as in C13 | the relation between the joint state and its parts; the part of the other operand is reached, so it accepts | P |
| C58 | compositions; refinement | the relation of the parts joined with the unchanged other part; both parts by transitivity and C60 | P |
| C59 | quotients and compositions; refinement | a relation for each direction, with the universal location related to everything and the error location never entered | P |
| C60 | conjunctions and compositions with operands exchanged or regrouped | symmetric relations between the states with the same parts | P |
| C61 | recipes, clock numbering and compilation of an expression in any place of a query | a renaming of clocks between any two placements; it preserves every clause of the semantics | P |
| C62 | the laws C57-C60 across queries; answers as in C50 | C61 moves refinements from one query to another, heterogeneous simulation relations for transitivity | P |
| C63 | get-component followed by refinements that mention the created component | C47 (what is saved behaves like the system) and C61, C62: the loaded component is alike (same alphabets, refines both ways) in every place of a query | P |
| C64 | &&, \|\|, \\\\ and get-component, inside expressions | timed bisimulation (`bisimilar` in Spec/SubstSpec.v) is a congruence for the three operators (relations between the parts, restricted to the clocks each part owns, are joined); induction over the surrounding expression with the placement lemmas of C61; the created component is bisimilar by C47 | P |
| C65 | order and grouping of operands, at any depth | the relations of C60 are timed bisimulations; congruence closure by C64 | P |
| C66 | the server end to end: requests, handlers, answers | handlers over the model of C42, composed with C30, C36, C50, C53; dialogues by induction over what the client was shown | (p) |
| C67 | the folder of a JSON project at every point of a command line | all contents in order by induction over the queries, characterised by C55's `answered` and `left_on_disk`; later commands by locality of look-ups | R, P |
| C68 | created components read again by a later command or sent back to the server | reading back (C47, C52) gives a renumbered component, placements (C61, C64) do not depend on numbers; input enabling of what accepts already is the identity | R, P |
| C69 | the lines printed below a verdict: why a refinement fails, and the steps of a path | `print_result`, `print_path` and the texts of `query_failures` and `specifics` (Model/Print.v); the descriptions are the ones of C53, so the sentences are matched against those truths; the steps are the run of C40 | R, P |
| C70 | the sorting of the actions before a reachability search, the search with the actions listed in any order (`find_listed`) | a sorted list without repetitions is determined by its members | P |
| C71 | two runs of a query with other choices | refinement and reachability: both answers are about one relation, one set of runs; determinism: every state of the second search lies within a state the first one passed; witness for consistency | R |
| C72 | components that are created, and those completed with edges for missing inputs | numbering is injective; a made-up identifier splits at its second underscore if location names have none; edges that instances take determine a step, by induction on systems without quotients; witnesses with underscores and for a quotient | R |

No property of `properties.jsonl` is left without a theorem.

## 4. Trusted base

* The kernel of Coq 8.16.1 (including `vm_compute`, used to evaluate witnesses).
* `Print Assumptions` of every theorem named in `MANIFEST.json` says "Closed under the global
  context": no axiom is used.  There are no axioms, admitted proofs, functors or module types
  of our own.  The gate's list of library items that are loaded (not used by any theorem) is
  `Coq.ssr.ssrunder.Under_rel` with its fields `Over_rel`, `Under_rel_from_rel`, `over_rel`,
  `over_rel_done`, `Under_rel`, `Under_relE`, `under_rel_done`: the opaque module of the
  standard library's ssreflect plugin, loaded through `Lia`/`Lra` and friends.
* The correspondence between /repo and the definitions of `Model/`, by reading.
* External crates as described in section 2: `edbm` (sets of valuations, `minimal_constraints`,
  `predt`, extrapolation, maximum bounds as a map from clocks to optional constants), `lru`
  (a recency list with capacity), `pest` (PEG semantics), `serde_json` (field by field copy of
  components; text syntax not modelled), `prost`/`tonic` (messages as records; byte encoding not
  modelled), `std::sync` (mutexes are exclusive), `catch_unwind` (a panic becomes an error value).

### Modelled

`EdgeEval/*`, `ModelObjects/Expressions/*` (arith, bool, state, query), `ModelObjects/{component,
location, edge, transition, state, statepair, declarations, system_declarations}`,
`DataTypes/statepair_list`, `TransitionSystems/*`, `System/{refine, reachability,
local_consistency, executable_query, extract_system_rep, extract_state, input_enabler, pruning, save_component,
specifics (locations, states, decisions, edges)}`, `System/query_failures` (the outcome
constructors the checks return, the failure descriptions and their texts), `Simulation/decision`, `DataReader/{parse_edge, parse_queries,
serialization, proto_reader, xml_parser}`, `ProtobufServer/{ecdar_backend, proto_conversions (simulation
part, failures), server, ecdar_requests/{send_query, simulation_requests, request_util}}`,
`DataReader/component_loader` (the `ModelCache` and the loaders), `DataReader/{json_reader, json_writer}`,
`ModelObjects/queries`, the query command of `main.rs` and `cli.rs`, `Simulation/graph_layout` from the end of the
simulation of forces (the positions it finds are a parameter; coordinates are rationals, not rounded `f32`s).

### Not modelled

* `elementtree` (XML text to element tree) and `serde_json` (JSON text to records), reading of files
  (a folder is a function from names to records);
* the simulation of forces (crate `force_graph`), `logging`, the option parser `clap`, `prost` and `tonic` (messages
  are their records, statuses have no texts); how a set of actions is shown with `{:?}` (a parameter);
* positions and colours of edges and locations that are loaded; the `urgency` of locations, which the code
  itself never reads after loading;
* process aborts (stack overflow, out of memory), except for what a command line that ends anywhere leaves in the folder of
  components (C67: a write is emptying and then writing in full; operating system crashes are not modelled); timing and the thread pool's scheduling beyond
  interleaving of critical sections.

## 5. Findings

Each is backed by a `_refuted` theorem unless marked (read): a remark from reading only.

* C01/C02: `x - 5 + 3` is simplified as `x - 8`: subtraction is re-associated.
* C01: `BoolExpression::conjunction` of an empty list is `false`, not `true` (nothing in the repository calls it so; `C01_no_conjunction_refuted`).
* C04: two assignments to one clock (`x := 1, x := 2`): the backward update conjoins both.
* C09/C16: a quotient whose divisor contains a quotient offers the new input twice.
* C11: with lower-bound invariants a reported path may not be executable, or building it aborts.
* C12: given start states are not delayed before the search.
* C13: the initial delay check and gaps in invariants make a positive answer wrong.
* C14 (read): `get_local_max_bounds` gives no bounds in inconsistent locations, though output edges drawn
  from one are still explored; the theorems for enlarged zones exclude such edges.
* C14: "cuts delay" answers can be wrong when guards enter violated invariants.
* C17: determinism failures are searched from all clock values, not the reachable ones.
* C18: a state whose branch failed stays in the passed list and later counts as success.
* C19: the delay test looks at the last passed state instead of the current one.
* C20: wildcard edges and two resets of one clock break input enabling.
* C23: a union of zones is saved without parentheses and reads back with another meaning; negative
  constants do not read back.
* C27/C28: location names containing the joining characters hide resets and invariants.
* C29/C46: clock reduction aliases the quotient clock; removing an "unused" clock turns `x >= 0`
  into false; a clock declared twice breaks the numbering.
* C30: edges without synchronisation give an action with the empty name, whose decision is
  offered by the simulator but aborts the server when sent back.
* C31/C32: the clocks `x`, `x1` and `x` make saving abort; joined location names collide; actions on
  unreached locations are lost; (read) location types Universal/Inconsistent are saved as Normal.
* C33: `x <= 5 + 5` leaves the bound of `x` at 0.
* C34/C40: special locations of quotients match no state, not even themselves.
* C35: leaves of transition ids abort on divisor-only transitions and misalign after a composed
  part that stays put.
* C36: resolving an offered decision aborts when outputs are ambiguous or invariants have lower bounds.
* C37: `predt_of_all_outputs` is called with the target of the edge instead of its source, so a
  consistent location is removed; prune queries pass the clock count instead of the dimension.
* C48: combining components maps the type Inconsistent to Normal before pruning, so pruning a system
  prunes nothing.
* C40: unknown components are silently ignored; sums of three summands are wrong; a disjunction with a
  location is read as a conjunction; copies of clockless components are not noticed as ambiguous.
* C41: system declarations without a space after the comma run names together.
* C45: save-as names print in the wrong order; disjunctions of states, negated states and component
  names starting with "not" abort the parser; two negations are read as one.
* C47: parenthesised guards and negative update constants do not survive a file;
  (read) actions ending in `!` or `?` lose a mark at each reload.
* C47: a file in which an edge leads to a location that is not there is loaded, but writing the component aborts
  after its file has been emptied.
* C55: the queries of a project are never run, as a command line without a query is rejected; yet every command line
  aborts if `Queries.json` is missing or one of its texts is not a single query; asking to save refinement relations aborts.
* C57: a conjunction refuses an input that one operand refuses, and then does not refine the other (`C57_acceptance_needed`).
* C63: get-component forgets actions that never happen, so `M <= P` is denied for the M made of P although `P <= P`
  is satisfied (`C63_lost_actions`).
* C56: if all nodes have the same coordinate, always so for a single location without edges, its places are not numbers.
* C50: a rejected query on a command line, or saving a component into an XML project, ends the program
  before the answers to the earlier queries are printed; (read) both sides of a refinement share
  one quotient clock if both contain quotients, so the end-to-end theorem excludes that.
* C51: `is_xml_project` uses `Path::ends_with(".xml")`, which compares whole path components: no
  `model.xml` is ever taken for an XML project, and the JSON loader aborts on it.  The first label of
  a location is read as its invariant whatever its kind; all edges get the id "NotImplemented"; an
  `IO A` line without actions aborts with Windows line ends and is read without.
* C11: the bounds of single clocks do not suffice for a reachability target that compares two clocks
  (`C11_difference_refuted`: a target no run reaches is reported reachable); this depends on `get_bounds`
  of `edbm`, not in /repo, bounding each clock by itself.  For other targets reachability from the initial
  state is decided (`C12_decided_partial`).
* C52: a component saved under a name with declared inputs is not made to accept them until the program
  is started again, so what a query sees depends on whether it was saved in the same run.
* C53: a failed consistency query does not show that the component cannot survive: the witness component
  is reported because an input leads to an inconsistent location, though it can produce its output
  before.  Proved for exact zones, and for extrapolation within the bounds of the clocks on components that
  compare clocks with numbers; without merged clocks (one system), not with quotients on both sides of a refinement; that a reply to a
  reachability query can always be built is not proved (C11 shows it cannot).  A system without
  actions has its empty set of outputs marked as inputs, which the specification accepts.
* (read) `BoolExpression::conjunction` of no operands is false; pruning's `handle_input` returns early
  and skips `remove_transition_if_unsat`; no test of the repository covers `prune:`.
* C67: files are emptied before they are written, so an interrupted command that replaces a component loses both the old
  and the new one; a command that panics at a later query prints nothing but keeps the components it made before.
* C68: a created component whose guard is a union of intersections is written without parentheses, and `||` binds tighter
  than `&&` when it is read: `P <= N` is satisfied in the command in which N is made of P and not in the next one. A lower
  bound on a difference of clocks is written with a negative number, which the grammar does not have: later commands that
  ask for N abort.
* C49: the determinism check of a quotient's operands is not exact when an operand has itself a quotient in its divisor:
  `(W \\ (W \\ W)) \\ V` is accepted although its dividend is not deterministic (`C49_nested_quotient_refuted`).
* C51: `clock x; clock y;`, an indented `clock x;`, a tab, and a space or a comment after a semicolon all abort the
  program, in XML documents and in component files (`C51_layout_refuted`); `clock x;clock y;` is read.
* C66: a client that is offered two outputs of one name and sends one of them back is answered with an internal error
  (`C66_offered_refuted`).
* C71: whether a system is called consistent can change from one run to the next, and with it every refinement it takes part in:
  the least consistency check keeps states that failed in its passed list, so the verdict depends on the order in which the
  hash set of outputs is listed (`C71_order_refuted`; a component with three locations).
  A single output in every location does not help: a state within a remembered one counts as fine, so the order of the inputs
  decides too (`C71_single_output_refuted`).
* C72: the edges the program adds for missing inputs are called `input_<location>_<input>`, so the one for `b_c` in `A` and the one for `c` in
  `A_b` share an identifier and a path cannot tell them apart (`C72_enabled_refuted`).
  In a quotient the step both sides take and the step to the error location are shown with the same edges (`C72_quotient_refuted`).
* C69: below a refinement that fails a part can be called inconsistent although it is consistent (the false alarm of C53).

- Query text (C45): the white space before "->" in a reachability query cannot be left out, because the grammar's names may not be
  followed by a dash: `reachability: A @ A.x->A.y` is rejected (`C45_arrow_refuted`).

## 6. Wrong programs

`seeded/LOG.jsonl` records, one per line, edits of the model that imitate realistic bugs, the
theorems that stop proving, and the theorems tightened when none did.

## 7. Comparison with the repository's tests

The model is not extracted or run in the build.  To see whether it is a model of this code, it was
extracted to OCaml outside `rocq/` and run on the repository's sample projects; `tools/conformance`
holds the scripts.  The expectations are the ones written in /repo/src/tests.

* 217 queries expected to be true or false: all agree, with clock reduction (the setting the tests
  use) and without it.
* 25 queries expected to fail in a particular way (`failure_message`, `system_recipe`): all agree.
* 167 tests that a saved component is a refinement of its system and the other way round: all agree.
* 12 tests of the path shown, 12 of the clocks found redundant, those of the edge identifiers and of the
  simulation requests: all agree.
* The tests of `get_indices`, `simplify`, `get_leaves`, `split_into_component_lists` and
  `compare_partial_locations`: all agree.
* The choices left open in the model were the classical extrapolation and minimal constraints that do not
  mention `x >= 0`.  With minimal constraints that do mention it, 23 queries of `delay_refinement.rs`
  get another answer under clock reduction: this is the condition in the refutation of C46.

Not run: the tests of the command line parser and of the texts of single protocol buffer messages.
