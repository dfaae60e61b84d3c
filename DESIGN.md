# Formal model of bertiniteam/b2 (Bertini 2 core) in Rocq/Coq

Source: `/repo/core` (C++), read as text.  Nothing was built or run.
Model: `/verif/rocq/theories`, Coq 8.16.1, logical name `Verif`.

## How the development is organised

* `Model*` / topic files: Gallina definitions of the code, one per function, each citing file and lines.
* `*_spec.v` / `Spec` sections: small independent definitions of what the English claim means.
* `*_proofs` / topic files: lemmas.
* `Prop_*.v` files: only the property theorems, each closed by `exact`, with `Print Assumptions`
  beneath and non-vacuity examples beside them.
* A claim that is false of the faithful model is kept as a theorem `..._refuted` (with a witness
  evaluated by the kernel), and the part that is true is proved as `..._partial` or under an
  explicit, decidable side condition.

## Modelling conventions

* Numbers. C++ uses `double`, MPFR complex numbers and exact rationals.  Algebraic facts are proved
  over an arbitrary field with decidable equality (record `fld`; rounding is not modelled), analytic facts over the standard-library
  reals.  Refutation witnesses are computed over canonical rationals `Qc`.
* Division by zero, out-of-range accesses, uninitialised reads and exceptions are explicit outcomes
  (`None`, or an error constructor), never a silently totalised default.
* Loops whose termination is itself the property are modelled as fuelled functions with an explicit
  `OutOfFuel` outcome, and termination is proved by giving a sufficient fuel for every input.
* External behaviour (the numerics of the predictor/corrector, the tracker called by an endgame, the
  linear solver) is an oracle: a universally quantified function or stream.  Theorems hold for every oracle.
* Machine integers: where the C++ arithmetic wraps (`unsigned`), the model uses `Z` with explicit `mod 2^32`.

## Property by property

| id | what is modelled | how it is proved |
|----|------------------|------------------|
| C01 | expression trees (n-ary signed sums, n-ary mul/div products, negate, power, integer power, unary functions), `Degree(v)` | induction on trees: evaluation along v is a polynomial of bounded degree |
| C02 | `Degree(group)` incl. the `UnaryOperator` version that sums per-variable degrees | upper bound by induction; equality refuted by `(x+y)^2` |
| C03 | `Homogenize` on trees | induction, h=1 |
| C04 | same | proved for the fragment without unary operators over several group variables; refuted for `(x+y)^2+x` |
| C05 | `IsHomogeneous` | same split as C04 |
| C06 | `Differentiate` for arithmetic nodes | formal derivation over any field (dual numbers) by induction; analytic version over R |
| C07 | `Differentiate` for sqrt/exp/log/trig | `is_derive` over R (Coquelicot) by induction |
| C08 | `PowerOperator::Differentiate` | proved if the exponent does not depend on v; refuted otherwise |
| C09 | the four simplification passes and the `Simplify` loop | value preserved at the values held at the call; refuted elsewhere; unconditional for depth reduction; SimpNormal.v: a round that counts nothing changes nothing that could be folded |
| C10 | heap of nodes with value/flag cache, `Eval`, `Reset`, `set_current_value` | invariant over all histories on acyclic heaps |
| C11 | `Homogenize` on the heap (in-place mutation) | refuted by a shared sum; equality with the tree version for unshared heaps |
| C12 | `LinearProduct`, `DiffLinear` | product rule by induction on the factors; hom-variable column refuted |
| C13 | SLP compiler and interpreter | compiler correctness by simulation |
| C14 | SLP evaluation flag | state machine; refuted for mixed number types |
| C15 | system variable bookkeeping | invariant over all operation sequences |
| C16 | `DehomogenizePointFIFO` | proved for homogenised systems with at most one hom group / all-affine; refuted for the mixed cases |
| C17, C18 | patches | algebra over any field |
| C19 | precision bookkeeping of a patch | state machine invariant; copy refuted |
| C20 | `IndexToSubscript` | mixed radix bijection |
| C21 | total degree start system | roots of unity over a field with primitive roots, injectivity |
| C22, C23 | m-homogeneous partitions | backtracking = exhaustive enumeration |
| C24, C25 | tracker loop | invariant over all oracle behaviours, measure |
| C26 | step size control | invariant; refuted for the fixed-precision tracker |
| C27 | AMP tracker control loop | measure; cap invariant |
| C28, C29 | cost minimisation, criterion B | loop invariant; wraparound refutation |
| C30 | Newton corrector loop | induction |
| C31 | Butcher tables entry by entry, FullStep, PredictorMethod | B-series: the step and the solution expanded over ordered rooted trees (Butcher.v, RK.v), tree conditions decided on all trees up to the order; quadrature from the moments; estimator of HeunEuler and two unselectable methods refuted |
| C32 | Hermite interpolation | divided differences; refuted for cubics, proved for degree <= 2 |
| C33 | Cauchy mean (Endgame.v, EgMean.v) | the loops collected by the code when the tracker follows the path; sums of roots of unity |
| C34 | Cauchy loops (Endgame.v, EndgameProof.v) | invariants of the whole run, oracles for tracker, refinement, estimate; maximum refuted by a run |
| C35 | time advance | geometric sequences; refuted for target <> 0 with factor <> 1/2 |
| C36 | cycle number search (EgSeries.v) | argmin over the candidates; bound refuted by the square root |
| C37 | security checks (EndgamePs.v, EndgameEx.v) | invariants over the sequence of approximations; Cauchy refuted by runs |
| C38, C39 | midpath checker (Midpath.v), boundary action (ZeroDim.v) | the check as a fold over the crossing pairs, invariant of the stored list; later checks and re-run flag refuted |
| C40, C41 | Solve with oracles for tracker and endgame (ZeroDim.v); precision, observers and estimates left out | fold invariants, counting of pairs; repeated Solve refuted |
| C42 | observers (Observers.v) | induction over histories; notification as a loop over the vector with undefined behaviour as an outcome; self-removal refuted |
| C43 | pool (Pool.v): `remove_if` on slots with use counts | invariant of the three segments; refuted; what is true of a purge is proved |
| C44 | expression grammar on characters with skipper, expectation points and fuel (Parser.v), printer; ordinary notation specified as an inductive relation (ParserSpec.v) | every text gets a verdict; ordinary notation without a leading minus is read as written; round trip for the printed form of readable trees; refuted for unary minus, blanks and several printed forms |
| C45 | name rule and declaration lists (Names.v) | refuted by prefix names; exact characterisation |
| C46 | comment stripper (Comments.v) | equality with a line based specification and with a two state machine up to white space |
| C47-C50 | system state machine (functions as shared nodes, flags, evaluation method, SLP) | refutations by histories; invariants for the safe histories |
| C51, C52 | m-homogeneous start system | coefficient extraction = number of valid partitions; zeros over any field, general position as hypothesis; StartPoint(index) from the enumeration to the elimination (Lu.v, MHomPoint.v), refutations for one-variable first groups, homogenized targets and projective groups |
| C53 | `AutoPatchFIFO` | layout of groups, refuted when groups follow ungrouped variables |
| C54 | `Differentiate()` with Differential leaves | induction on trees, equality with `Differentiate(v)` |
| C55 | `FormHomotopy` as a sequence of system operations | invariant of the system state machine |
| C56 | transformation to the s-plane, Hermite interpolation, cycle search (EgSeries.v) | rescaled polynomials, C32; exact error of cubics, x = t^3 computed |
| C57 | number grammar (NumLit.v) | recogniser equivalence; refuted for two signs and fractions |
| C58 | SplitInputFileParser as ordered alternatives over text (Split.v) | one theorem per layout; factorisation of the text for all inputs; refuted for markers inside words |
| C59 | permutation parser with skipping of foreign text, 14 tables of names, the choices and NewtonConfig (Settings.v, Choice.v) | soundness and completeness of the scanner by induction on the text |
| C62 | the loop of pow (Power.v) | loop invariant, strong induction on the exponent |
| C63 | the loop over the pivots (LuCheck.v) | induction on the row; triangular systems solved by substitution |
| C60 | the statements of SystemParser as a PEG with growing symbol tables (SysParser.v) on top of the expression grammar | relation between statements and texts (SysParserSpec.v); induction on the statements; soundness by induction on the number of statements read |
| C64 | the adaptive and fixed precision tracking loops (Track.v, Amp.v) observed step by step (Count.v) | counters as folds over the list of steps taken; induction on the number of steps |
| C61 | the operators as allocation of nodes in the graphs of Heap.v, *= and /= as change of a node (NodeOps.v) | induction on the expression; unfolding of a node is unchanged by allocation and by changes it does not reach |
| C65 | generators as arbitrary sequences in the unit interval; state = default precision and number of draws (Random.v) | case analysis on the ladder of generators; real and complex analysis |
| C66 | Slice.v: the members as lists of (value, precision) pairs over an abstract field, an arbitrary rounding function; witness set points as a list under an operation list | invariant over precision histories with rounding idempotent downwards; list induction; concrete witnesses for the refutations |
| C67 | Uniform.v: numbers as (value, precision) pairs, exceptions and assertions as outcomes | induction over the containers; concrete witnesses for the refutations |
| C68 | Recorders.v: recorders as state machines on events, the tracker emits a change before making it, the solver's bookkeeping per phase over an arbitrary history | invariant over histories with exact characterisation of the records; concrete histories for the refutations |
| C69 | NumText.v: generators and parsers over lists of characters, on the grammar of NumLit.v | exact behaviour of the number rule on a literal followed by text that does not continue it |
| C70 | UserStart.v: the two containers and the flag, the archive as a typed item list. | Direct, and by induction over the lists for the archive. |
| C71 | PrecTree.v: trees with node identities, cells with value, precision and flag; set_precision, reset, eval; linear products; straight line program constants. | Invariant over operation lists; a pass invariant for the early exit of functions; induction over trees. |
| C72 | Predictor.v: the predictor object as a record with the precision and size of each buffer, construction and the three changes as total functions, the three overloads of Predict over any vector type, with the linear solve, norms, random vectors and criteria as parameters (one Jacobian norm for a run of predictions) | induction over the list of changes with the readiness invariant; case analysis of the step; induction over the run of predictions; witnesses |
| C73 | AmpCriteria.v: criteria and digits over reals extended with infinities and NaN, configuration with unset fields as options, polynomials as lists of complex coefficients with exponents, random points as parameters | logarithm identities, integer part lemmas, induction over monomials and folds, witnesses |
| C74 | Output.v over the solver model of ZeroDim.v; dehomogenization as a function on points, an exception for paths without end point; the printed numbers are left out | induction over the lists of points and metadata, combined with the theorems on Solve (C40, C41); symbolic evaluation of two calls for the witness |
| C75 | Trackers.v: a heap of predictor objects (Predictor.v) and corrector objects, trackers as records with references, implicit copies | invariant by induction over histories with families of copies, frame argument for the objects of other families; evaluation of witness histories |
| C76 | Options.v over ZeroDim.v: the solver object with its configuration structs, a tracker carrying path variable name and truncation threshold, oracles for tracker and endgame depending on everything they can see; the chain of template switches as functions | induction over histories, a simulation between histories that differ in unused settings, case analysis for the switches |
| C77 | HomogSys.v over Homog.v and Degree.v: systems as lists of trees and groups; MultiDegree | a syntactic certificate of homogeneity kept by later homogenizations, induction over trees and over the groups; evaluation of witnesses |
| C78 | SysPrec.v: precisions of variables, systems and programs; all checks of the evaluation functions as verdicts | invariant over all histories: after the switch default, system, variables and program agree; evaluation of witnesses |
| C79 | Archive.v (archive as tokens, nodes with their saved members, tracking), Serial.v (System, TotalDegree, MHomogeneous, evaluation through pointers) | induction on the fuel of writing: reading any prefix gives the nodes written, renamed by order of first occurrence, which is injective |
| C80 | MatrixExt.v (lists of columns, loops over entries of uninitialised memory, storage orders) | loop invariants over the rows and columns touched; case analysis on the quotients; chunks of the storage |
| C81 | AmpState.v (all members of the tracker with a precision, assertions as an outcome) | invariant by induction over the list of operations |
| C82 | SysCache.v: System as an object with the node graph of Heap.v, its point and the calls which set, reset and evaluate. | Every call is a sequence of node operations; the invariants of Heap.v (a valid cache holds the value at the last assignment) are extended to systems: what is below a node just reset is right, and calls which set nothing of the type keep it right. |
| C83 | Endgame.v (existing), EgGeo.v, EgZone.v: GetIntoEGZone with arbitrary tracker and estimates; ComputeCOverK with its logarithms as a function of three samples; RatioEGOperatingZoneTest | invariant: a log of the moments at which estimates were made, by induction over both loops; algebra with Rpower for the estimate |
| C84 | Permuted.v: index_by_type, get_by_index, unpermute, config_get, config_set, set_all | induction on type lists: the index of a type occurring once splits the list; a type occurring twice is rejected; then the tuple is a map over the needed types |
| C85 | EgRefine.v: refine_impl, refine_sample, refine_sample_fixed, uniform_precision, refine_all_samples; EgRefineEx.v: run without convergence | case analysis of the two attempts with the invariant that default, tracker and system precision agree; induction on the samples |
| C86 | SimpGraph.v: the passes on nodes of Heap.v with caches, graph_simplify, randomize, restore, simplify_derivatives, simplify_system; SimpGraphEx.v | invariant linking the graph to valuations at the random point and at any other point, kept by each pass; weights decreasing under every change for termination; SimpGraphN.v: what a round that counts nothing leaves |
| C87 | The three functions of precon.cpp as calls of the node operators of NodeOps.v | computation of the values over an abstract field, then field identities |
| C88 | vdegree, vhomogeneous (null pointer as None), copy_degrees (DegreeAll.v) | induction over trees; a node of degree 0 is constant; comparison with the group degree by induction; two small targets computed |
| C89 | SolveSetup.v composes Homogenize (HomogSys.v), AutoPatch (Patch.v), the constructor of the start system (DegreeAll.v), its start points (TotalDegree.v) and the values of the homotopy | the degree of a homogenized function is its degree in the group; the homotopy is homogeneous, so zeros can be scaled to the patch; roots of x^d = r are complete |
| C90 | SysValue.v puts the nodes of the parsed system (SysParser.v) together: predefined numbers, variables, and functions through the root set last | induction over the rank of a definition for resolution; the values of a tree by induction; executing a straight line program satisfies the equations |
| C91 | IniConfig.v models the rules of the grammar with the skipper | the rules on a line in the specified layout; induction over the lines; what is left after a line end differs by white space only |
| C92 | TextSolve.v joins SysParser.v, SysValue.v and SolveSetup.v; PowNode.v carries the theorems on systems over to the power nodes the parser makes | a simulation: replacing powers with number exponents by integer powers commutes with degree, homogenization and set-up; induction over trees and over the order of definitions for the conditions of C89 |
| C93 | LinearTree.v (trees linear in the unknowns), LinearPath.v (EvalIterationStep with values and Jacobian matrix of the trees, as corrector of Track.v), LinearPathEx.v | induction over linear trees in dual numbers shows that values are affine and derivatives their coefficients (with C06); one Newton step with the LU solver (Lu.v) then lands on the solution and the next one is zero; induction over the number of steps left shows that the loop ends with Success |
| C94 | LinearSolve.v (the functions of the homotopy as trees, with the patch equation as last one), LinearHom.v, LinearSolveEx.v, LinearText.v (texts of degree one give linear trees), LinearTextEx.v; the set-up of SolveSetup.v and the tracker of LinearPath.v and Track.v | the trees evaluate to the homotopy of C89 and are linear because homogenizing a linear tree gives a linear one; C93 tracks the path; a zero at time 0 off the hyperplane h = 0 gives the solutions of the target by C89, and by regularity there is one only |
| C95 | LinearGamma.v (determined, on_rays) over the set-up of SolveSetup.v and the homotopy functions of LinearSolve.v; Pencil.v holds the linear algebra; texts as in C94 | the values of the homotopy with the patch are affine in the point with matrix (1-t)A + t*gamma*B; Pencil.v shows by induction on independent null vectors that A + sB is singular for at most as many s as there are variables; s = t*gamma/(1-t) runs along a ray; at the two ends the solution and start conditions give regularity directly |
| C96 | DataFiles.v (the text of both files, line by line), NumText.v for complex numbers | the lines of the file are computed; a block ends at an empty line, and no other line of it is empty except one at a fixed place, so that blocks are split off one after the other; a complex number is split at its first space; decimal numbers are injective |
| C97 | Events.v (tracker with its notifications, recorders, MultiObserver), EventsEx.v (runs) | the notifying loop returns the same outcome as the loop of Track.v, by induction on the rounds; the events of a round are read off from its cases; the recorded path by induction with time, point and counters as invariant |
| C98 | AmpEvents.v (tracker of Amp.v with its notifications), AmpEventsEx.v (runs) | the notifying loop returns the same outcome as the loop of Amp.v, by induction; the events of a round are read off from its cases; every change of precision goes through one function, so that belief and precision agree by induction on the events; the recorded path with time, counters and the point up to conversions as invariant |
| C99 | EgEvents.v (run of Endgame.v with its notifications), EgEventsEx.v (runs) | the notifying run returns the same outcome as the run of Endgame.v, by induction on the fuel; history of approximations, neutrality of all events before the last, and the counters as invariants of the loop |

## Trusted base

* Coq 8.16.1 kernel (and `coqchk`), `vm_compute`.
* Axioms: see the list at the end of this file, produced by `Print Assumptions` for each property theorem.
* The correspondence between the C++ text and the Gallina definitions (by reading; line references are in the comments).

* Oracles (universally quantified, so nothing is assumed of them): in the trackers the predictor, the
  linear solver inside the Newton corrector, the norm, the precision criteria A, B, C, the digit
  estimates, the divergence test and the conversion of points between precisions.  Times and step sizes
  are exact complex and real numbers.

## Not modelled

Everywhere:

* Floating-point rounding.  Numbers are elements of a field, exact complex or exact real numbers.  Where
  the number of digits matters (trackers, endgames, systems, patches) it is carried beside the value.
* What Eigen, Boost.Spirit, Boost.Serialization, MPFR/MPC and the standard library do inside.  LU with
  partial pivoting is modelled (Lu.v), QR is an oracle.  Grammars are modelled as the parsers Spirit
  makes of them: ordered choice, greedy repetition, skipping.  Archives are modelled as the sequence of
  values that `serialize` writes and reads.  The generators behind random numbers are oracles.  The
  functions that turn their output into numbers are modelled (Random.v).
* Time, memory and the addresses of objects.  Sharing between nodes is modelled (Heap.v, SimpGraph.v).
* Threads: the code starts none.

Files without a model (line counts include comments):

* `trackers/base_predictor.hpp`, `predict.hpp`, `newton_correct.hpp`, `step.hpp`,
  `nag_algorithms/sharpen.hpp`, `trace.hpp`, `regen_extension.hpp`,
  `numerical_irreducible_decomposition.hpp`: superseded or empty, nothing in the library calls them.
* `src/blackbox`, `include/bertini2/blackbox` other than the switches cited in Options.v: `main` reads the
  command line and does no work.
* `parallel`: calls of MPI_Init and MPI_Finalize.  `logging.hpp`, `io/splash.hpp`: output only.
* `detail/singleton.hpp`, `forbid_mixed_arithmetic.hpp`, `have_bertini`, `unity.cpp`, headers which only
  include others.
* `io/file_utilities.hpp`: reading whole files from disk.
* `endgames/prec_base.hpp`: declarations.
* The Python bindings.

`python3 tools/citecheck.py` checks that every file and line range cited in a comment of the model
exists in /repo.

<!-- axioms -->
## Axioms

From `Print Assumptions` of every property theorem (tools/axioms.py). All axioms are those of the standard library.

* Closed under the global context (no axioms): 396 theorems, all those not listed below.
* Axioms `ClassicalDedekindReals.sig_forall_dec`: C35_initial_times, C65_complex_digits, C65_default_precision_refuted, C73_user_bounds_refuted.
* Axioms `ClassicalDedekindReals.sig_forall_dec`, `FunctionalExtensionality.functional_extensionality_dep`: C21_unpatched_homogenized_refuted, C28_cheapest, C28_step_within_maximum, C28_precision_within_bounds_partial, C28_precision_within_bounds_refuted, C28_lowest_precision_wins, C29_never_below_one, C29_too_little_precision, C30_success_means_converged, C30_at_most_max, C30_convergence_is_reported, C30_minimum_zero_never_succeeds, C30_possible_codes, C35_cauchy_geometric, C35_power_series_geometric_partial, C65_interval, C65_real, C65_real_default, C65_complex, C80_close, C80_close_real, C89_set_up_partial, C89_number_partial, C89_ends_partial, C89_every_solution_partial, C89_homogeneous_partial, C89_powers_partial, C89_power_refuted, C89_throws_refuted, C92_set_up_partial, C92_number_partial, C92_ends_partial, C92_every_solution_partial, C92_square_refuted, C92_throws_refuted, C94_rows, C95_a_direction_must_be_left_out.
* Axioms `ClassicalDedekindReals.sig_forall_dec`, `ClassicalDedekindReals.sig_not_dec`, `FunctionalExtensionality.functional_extensionality_dep`: C24_times_on_segment_fixed, C24_times_on_segment_amp, C24_success_at_end_fixed, C24_success_at_end_amp, C25_terminates, C25_terminates_carried, C25_step_not_far_below_minimum, C25_any_settings_refuted, C26_grows_after_successes_amp_partial, C26_growth_earned_amp_partial, C26_shrinks_after_failure_amp_partial, C26_maximum_amp_partial, C26_maximum_amp_refuted, C26_shrinks_amp_refuted, C26_fixed_shrinks_partial, C26_fixed_grows_refuted, C27_terminates, C27_cap, C27_zero_factor_refuted, C33_degree_sharp, C35_power_series_stops_partial, C35_power_series_target_refuted, C35_power_series_endless_refuted, C37_power_series, C38_returns, C38_reports, C38_later_checks_refuted, C38_resolved_refuted, C38_distance_refuted, C39_runs_partial, C39_distinct_starts_refuted, C40_first_solve, C40_later_solves_partial, C40_later_solves_refuted, C41_multiplicity_partial, C41_first_solve, C41_repeated_refuted, C63_success_iff, C63_small_iff, C63_success_solvable, C63_scaling_refuted, C63_conditioning_refuted, C64_counters_fixed, C64_counters_amp, C64_unsolvable_raises, C64_criterion_raises, C64_lowering, C64_start_point, C65_unit_double, C65_unit_partial, C65_unit_digits_partial, C65_unit_refuted, C73_coefficients_partial, C73_coefficients_refuted, C74_nonsingular_partial, C74_nonsingular_refuted, C74_all_partial, C74_all_refuted, C74_files, C76_settings_partial, C76_unused_refuted, C76_late_refuted, C76_late_witness, C76_setup_again, C83_zone_partial, C83_newest_refuted, C83_ratio_partial, C83_cutoff_refuted, C93_linear_paths_tracked, C93_linear_paths_to_zero, C93_corrector_finds_the_solution, C97_events, C97_ended_once, C97_truthful, C97_path_recorded_partial, C97_truncated_refuted, C98_events, C98_precision_known, C98_truthful, C98_path_recorded_partial, C98_between_paths_refuted, C99_same_answer, C99_events, C99_reasons, C99_counts.
* Axioms `ClassicalDedekindReals.sig_forall_dec`, `Classical_Prop.classic`, `FunctionalExtensionality.functional_extensionality_dep`: C95_directions, C95_directions_remain.
* Axioms `ClassicalDedekindReals.sig_forall_dec`, `ClassicalDedekindReals.sig_not_dec`, `Classical_Prop.classic`, `FunctionalExtensionality.functional_extensionality_dep`: C07_differentiate_real, C08_power_partial, C08_power_refuted, C21_start_points_are_zeros, C21_start_points_distinct, C21_start_points_complete, C21_patched_start_points_are_zeros, C21_patched_start_points_distinct, C21_ungrouped_refuted, C28_feasible_refuted, C29_enough_precision_partial, C29_criterion_B_refuted, C33_mean_exact, C33_first_mean_exact, C34_bookkeeping_partial, C34_sample_count, C34_maximum_refuted, C35_cauchy_stops, C36_minimises, C36_candidates, C36_bound_is_lower_bound_refuted, C36_maximum_refuted, C37_cauchy_level_zero_never_refuted, C37_cauchy_positive_level_partial, C37_cauchy_levels_refuted, C37_cauchy_undefined_refuted, C56_series_exact_partial, C56_cubic_partial, C56_cubic_refuted, C73_criteria, C73_more_digits, C73_required_partial, C73_required_refuted, C73_stepsize, C73_stepsize_tight, C73_config_partial, C73_nonpolynomial_refuted, C75_as_wished_partial, C75_copy_refuted, C75_copy_system_refuted, C75_threshold_refuted, C75_setup_refuted, C75_digits_partial, C75_digits_refuted, C83_estimate_partial, C83_estimate_refuted, C83_constant_refuted, C85_ignored_refuted, C89_starts_partial, C89_all_starts_partial, C92_starts_partial, C94_linear_targets_solved, C94_linear_texts_solved, C95_solution_found, C95_text_solution_found.
