{"id": "C01", "title": "Degree(v) bounds the degree of the function", "statement": "If Degree(v) of a function-tree node is a nonnegative number d, then, with every other variable fixed, the value of the node as a function of v is a polynomial of degree at most d; in particular a nonnegative answer certifies polynomiality in v.", "quantifier": "every expression tree, every variable, every value of the other variables", "why_tests_cant": "unbounded family of trees; a test samples a few shapes", "anchors": ["core/src/function_tree/operators/arithmetic.cpp: SumOperator::Degree, MultOperator::Degree, IntegerPowerOperator::Degree, PowerOperator::Degree", "core/include/bertini2/function_tree/operators/operator.hpp: UnaryOperator::Degree"]}
{"id": "C02", "title": "Degree of a variable group is the total degree", "statement": "Degree(group) of a polynomial tree equals the total degree in the variables of the group (the degree d such that f restricted to any line t -> a+t*b through the group variables has degree at most d, with the least such d reported for generic trees).", "quantifier": "every polynomial tree and every variable group", "why_tests_cant": "needs all trees; known unit tests only use sums of monomials", "anchors": ["core/src/function_tree/operators/arithmetic.cpp: SumOperator::Degree(VariableGroup), MultOperator::Degree(VariableGroup)", "core/include/bertini2/function_tree/operators/operator.hpp: UnaryOperator::Degree(VariableGroup)"]}
{"id": "C03", "title": "Homogenize is undone by setting the homogenizing variable to 1", "statement": "After Homogenize(group,h) succeeds on a tree, evaluating the result with h=1 gives the value of the original tree at every point.", "quantifier": "every tree for which Homogenize does not throw, every group, every point", "why_tests_cant": "infinitely many trees and points", "anchors": ["core/src/function_tree/operators/arithmetic.cpp: *::Homogenize"]}
{"id": "C04", "title": "Homogenize produces a homogeneous function", "statement": "After Homogenize(group,h) succeeds on a polynomial tree, scaling all group variables and h by lambda scales the value by lambda^d where d is the reported degree.", "quantifier": "every polynomial tree, scale factor and point", "why_tests_cant": "infinitely many trees and points", "anchors": ["core/src/function_tree/operators/arithmetic.cpp: SumOperator::Homogenize, MultOperator::Homogenize, PowerOperator::Homogenize, IntegerPowerOperator::Homogenize"]}
{"id": "C05", "title": "IsHomogeneous never answers true for a non-homogeneous function", "statement": "If IsHomogeneous(group) returns true then the function scales as lambda^d in the group variables, with d=Degree(group).", "quantifier": "every polynomial tree, group, scale factor and point", "why_tests_cant": "a yes/no answer must be right on all trees", "anchors": ["core/src/function_tree/operators/arithmetic.cpp: SumOperator::IsHomogeneous, MultOperator::IsHomogeneous", "core/include/bertini2/function_tree/operators/operator.hpp: UnaryOperator::IsHomogeneous"]}
{"id": "C06", "title": "Differentiate computes the partial derivative (arithmetic nodes)", "statement": "For trees built from numbers, variables, sums, products, quotients, negation and integer powers, the tree returned by Differentiate(v) evaluates, wherever the original evaluates without dividing by zero, to the partial derivative with respect to v.", "quantifier": "every such tree, variable and point of definition, over any field", "why_tests_cant": "unbounded trees and points", "anchors": ["core/src/function_tree/operators/arithmetic.cpp: SumOperator::Differentiate, MultOperator::Differentiate, NegateOperator::Differentiate, IntegerPowerOperator::Differentiate"]}
{"id": "C07", "title": "Differentiate computes the partial derivative (elementary functions)", "statement": "For trees which also use sqrt, exp, log, sin, cos, tan, arcsin, arccos, arctan, Differentiate(v) evaluates to the analytic derivative at every point of the interior of the domain.", "quantifier": "every tree over these nodes and every real point of the open domain", "why_tests_cant": "unbounded trees; analytic statement", "anchors": ["core/src/function_tree/operators/arithmetic.cpp: SqrtOperator, ExpOperator, LogOperator", "core/src/function_tree/operators/trig.cpp: *::Differentiate"]}
{"id": "C08", "title": "Differentiate of a general power", "statement": "Differentiate(v) of base^exponent is the derivative with respect to v for every base and exponent node.", "quantifier": "every base and exponent tree", "why_tests_cant": "tests only use exponents not depending on v", "anchors": ["core/src/function_tree/operators/arithmetic.cpp: PowerOperator::Differentiate"]}
{"id": "C09", "title": "Simplify preserves the function", "statement": "Simplify(n) changes the representation of a function but not its value at any point. It returns; no sum is then an operand of a sum and no product of a product, next to other operands no summand is 0 and no factor is 0 or 1, and simplifying again changes nothing.", "quantifier": "every tree, every assignment of values held by the variables when Simplify is called, every later evaluation point", "why_tests_cant": "the set of evaluation points and histories is infinite", "anchors": ["core/src/function_tree/simplify.cpp: Simplify", "core/src/function_tree/operators/arithmetic.cpp: EliminateZeros, EliminateOnes, ReduceSubSums, ReduceSubMults, ReduceDepth"]}
{"id": "C10", "title": "Evaluation reflects the current variable values", "statement": "After any sequence of variable assignments, Resets and evaluations on a shared function graph, evaluating a node after a Reset of that node gives the value of its expression at the current variable values, however the sub-expressions are shared.", "quantifier": "every function graph (with sharing) and every history of set/reset/eval", "why_tests_cant": "histories and sharing patterns are unbounded", "anchors": ["core/include/bertini2/function_tree/node.hpp: Node::Eval, Node::EvalInPlace", "core/include/bertini2/function_tree/operators/operator.hpp: *::Reset", "core/src/function_tree/symbols/variable.cpp: Variable::set_current_value"]}
{"id": "C11", "title": "Homogenization of shared sub-expressions", "statement": "Homogenizing functions which share sub-expressions gives the same result as homogenizing unshared copies.", "quantifier": "every function graph with sharing", "why_tests_cant": "tests build trees without sharing", "anchors": ["core/src/function_tree/operators/arithmetic.cpp: SumOperator::Homogenize"]}
{"id": "C12", "title": "LinearProduct evaluation and derivative", "statement": "A LinearProduct node evaluates to the product of its linear forms; its degree, homogenization and derivative with respect to each variable, including the homogenizing variable, are those of that product.", "quantifier": "every coefficient matrix, point and differentiation variable", "why_tests_cant": "unbounded sizes and values", "anchors": ["core/src/function_tree/linear_product.cpp", "core/include/bertini2/function_tree/symbols/linear_product.hpp: LinearProduct, DiffLinear"]}
{"id": "C13", "title": "Straight-line program agrees with the function tree", "statement": "Compiling a system's functions to a straight-line program and running it gives, for each function and each derivative, exactly the value obtained by evaluating the trees.", "quantifier": "every list of function trees built from the visitable nodes, every input point", "why_tests_cant": "all programs and points", "anchors": ["core/src/system/straight_line_program.cpp: SLPCompiler::Visit, SLPCompiler::Compile", "core/include/bertini2/system/straight_line_program.hpp: StraightLineProgram::Eval"]}
{"id": "C14", "title": "SLP re-evaluation after changing inputs", "statement": "After SetVariableValues / SetPathVariable, and in whichever number type, GetFuncVals/GetJacobian return values for the most recently set inputs.", "quantifier": "every history of set/eval calls in double and multiple precision", "why_tests_cant": "histories are unbounded", "anchors": ["core/include/bertini2/system/straight_line_program.hpp: StraightLineProgram::Eval, SetVariableValues"]}
{"id": "C15", "title": "Variable ordering lists every variable exactly once", "statement": "The FIFO variable ordering of a system contains each ungrouped variable, each variable of each group, and each homogenizing variable exactly once, with the homogenizing variable immediately before its affine group, groups in the order added; it is refused by an exception exactly when a group was added after homogenization.", "quantifier": "every sequence of variable-adding calls, homogenizations, queries and copies of the structure of other systems", "why_tests_cant": "histories are unbounded", "anchors": ["core/src/system/system.cpp: System::VariableOrdering, ConstructOrdering, NumVariables"]}
{"id": "C16", "title": "Dehomogenize is a left inverse of homogenizing a point", "statement": "DehomogenizePoint divides each affine group by its homogenizing coordinate, leaves homogeneous groups and ungrouped variables alone, and returns the point in natural coordinates, for any mix and order of groups.", "quantifier": "every mix, order and size of groups, every point with nonzero homogenizing coordinates", "why_tests_cant": "all mixes of groups", "anchors": ["core/include/bertini2/system/system.hpp: DehomogenizePoint, DehomogenizePointFIFO"]}
{"id": "C17", "title": "Patch rescaling puts a point on the patch", "statement": "RescalePointToFit(x) satisfies the patch equations, is a per-group multiple of x, is idempotent, and is invariant under rescaling x group by group.", "quantifier": "every patch, every point not on the hyperplane at infinity of the patch", "why_tests_cant": "infinitely many patches and points", "anchors": ["core/include/bertini2/system/patch.hpp: Patch::RescalePointToFit, RescalePointToFitInPlace, EvalInPlace"]}
{"id": "C18", "title": "Patch evaluation and Jacobian agree", "statement": "The Jacobian of the patch is the derivative of its evaluation, and neither writes outside its own rows.", "quantifier": "every patch, point, offset", "why_tests_cant": "all sizes", "anchors": ["core/include/bertini2/system/patch.hpp: Patch::EvalInPlace, JacobianInPlace"]}
{"id": "C19", "title": "Patch precision", "statement": "After Precision(p), copy, and change of precision in any order, the coefficients used for evaluation have the precision the patch reports, and raising the precision again recovers the original digits.", "quantifier": "every history of precision changes and copies", "why_tests_cant": "histories unbounded", "anchors": ["core/include/bertini2/system/patch.hpp: Patch::Precision, Patch(Patch const&)"]}
{"id": "C20", "title": "IndexToSubscript is a bijection", "statement": "IndexToSubscript maps {0..prod(d)-1} one-to-one onto the subscripts below d and throws for larger indices.", "quantifier": "every dimension vector and index", "why_tests_cant": "unbounded", "anchors": ["core/include/bertini2/system/start/utility.hpp: IndexToSubscript"]}
{"id": "C21", "title": "Total-degree start points are the distinct roots of the start system", "statement": "For a target whose natural variables form one affine group: NumStartPoints is the product of the degrees (while it fits in 64 bits); StartPoint(i) is a zero of the start system for each i below it, different indices give different points, every zero of the start system is a start point; with a homogenized and patched target the points also lie on the patch and are projectively distinct.", "quantifier": "every degree vector, every nonzero constants, every index", "why_tests_cant": "unbounded", "anchors": ["core/src/system/start/total_degree.cpp: TotalDegree::NumStartPoints, GenerateStartPoint"]}
{"id": "C22", "title": "Multihomogeneous partitions are enumerated exactly once", "statement": "The valid partitions are exactly the assignments of functions to variable groups with nonzero degree and at most the group's number of functions per group, each listed exactly once, and NumStartPoints is the sum over them of the products of degrees.", "quantifier": "every degree matrix and group sizes", "why_tests_cant": "backtracking over unbounded sizes", "anchors": ["core/src/system/start/mhom.cpp: MHomogeneous::GenerateValidPartitions, ChooseColumnInRow, NumStartPoints"]}
{"id": "C23", "title": "Multihomogeneous start point lookup is well defined", "statement": "As long as NumStartPoints is below 2^31, every index below NumStartPoints selects exactly one (partition, subscript) pair, all pairs are reached, and larger indices throw. (Beyond 2^31 this fails: the running count is an int.)", "quantifier": "every list of partitions and index", "why_tests_cant": "unbounded", "anchors": ["core/src/system/start/mhom.cpp: GenerateStartPointT"]}
{"id": "C24", "title": "A successful track ends at the requested time", "statement": "If TrackPath returns Success, the last time reached equals the end time up to the relative tolerance; every intermediate time lies on the segment from start to end and the distance to the end never increases.", "quantifier": "every system, predictor/corrector behaviour, start and end time, settings", "why_tests_cant": "all schedules of step successes and failures", "anchors": ["core/include/bertini2/trackers/base_tracker.hpp: Tracker::TrackPath"]}
{"id": "C25", "title": "Fixed-precision tracking terminates", "statement": "With a failure factor below one and a positive minimum step size, TrackPath with a fixed-precision tracker terminates after a number of iterations bounded by the settings alone, whatever the system, predictor and corrector do, and the step size never drops below the minimum by more than one failure factor before it stops.", "quantifier": "every sequence of step outcomes, every system and path, all settings with failure factor in [0,1) and positive minimum step size", "why_tests_cant": "all schedules", "anchors": ["core/include/bertini2/trackers/fixed_precision_tracker.hpp", "core/include/bertini2/trackers/base_tracker.hpp"]}
{"id": "C26", "title": "Step size adapts", "statement": "After a run of consecutive successes the step size grows by the success factor up to the maximum; after a failure it shrinks by the failure factor; it never exceeds max_step_size.", "quantifier": "every sequence of step outcomes and settings", "why_tests_cant": "all schedules", "anchors": ["core/include/bertini2/trackers/fixed_precision_tracker.hpp: OnStepSuccess", "core/include/bertini2/trackers/amp_tracker.hpp: AdjustAMPStepSuccess, StepSuccess", "core/include/bertini2/trackers/config.hpp: SteppingConfig"]}
{"id": "C27", "title": "Adaptive-precision tracking terminates and respects the precision cap", "statement": "With a failure factor strictly between zero and one, a positive minimum step size and a precision cap between double precision and the largest precision supported, the AMP tracker terminates whatever the numerics do, and never starts a step at a precision above maximum_precision.", "quantifier": "every sequence of step outcomes, every system and path, those settings", "why_tests_cant": "all schedules", "anchors": ["core/include/bertini2/trackers/amp_tracker.hpp: PreIterationCheck, TrackerIteration, *Error"]}
{"id": "C28", "title": "MinimizeTrackingCost selects a feasible cheapest pair", "statement": "The precision and step size chosen lie within the given bounds and have least cost per unit advance among the candidates.", "quantifier": "every bounds, digits_B, settings", "why_tests_cant": "unbounded inputs", "anchors": ["core/include/bertini2/trackers/amp_tracker.hpp: MinimizeTrackingCost"]}
{"id": "C29", "title": "Criterion B limits the step size", "statement": "StepsizeSatisfyingCriterionB returns 10^(-(digits_B - precision)*newton/(order+1)), which is below 1 when the precision is insufficient.", "quantifier": "every precision, digits_B, iterations, order", "why_tests_cant": "unsigned arithmetic over all inputs", "anchors": ["core/include/bertini2/trackers/amp_tracker.hpp: StepsizeSatisfyingCriterionB"]}
{"id": "C30", "title": "Newton correction success is what it claims", "statement": "Correct returns Success only after at least min_num_iterations steps, the last shorter than the tolerance, and never takes more than max_num_iterations.", "quantifier": "every sequence of step norms and solve outcomes", "why_tests_cant": "all schedules", "anchors": ["core/include/bertini2/trackers/newton_corrector.hpp: Correct"]}
{"id": "C31", "title": "Runge-Kutta predictors have their advertised order", "statement": "Every predictor in the list can be selected, and its prediction, expanded in the step size, agrees with the solution of x'=f(x,t) through the current point in every power up to Order(); x'=p(t) with p a polynomial of degree below Order() is integrated exactly; the error estimate, where there is one, vanishes in the powers up to Order().", "quantifier": "every predictor and history of selections, every smooth right-hand side (formally), every polynomial right-hand side, start time and step", "why_tests_cant": "all polynomials and steps", "anchors": ["core/src/tracking/explicit_predictors.cpp", "core/include/bertini2/trackers/explicit_predictors.hpp: FullStep, predict::Order"]}
{"id": "C32", "title": "Hermite interpolation reproduces polynomials", "statement": "HermiteInterpolateAndSolve with n samples and derivatives of a polynomial path of degree at most 2n-1 returns the exact value at the target time.", "quantifier": "every polynomial path, distinct sample times, target", "why_tests_cant": "all polynomials and times", "anchors": ["core/include/bertini2/endgames/interpolation.hpp: HermiteInterpolateAndSolve"]}
{"id": "C33", "title": "Cauchy average is exact for truncated Puiseux series", "statement": "The mean of the samples collected around c loops of n points is the value at the target time for every path polynomial of degree < c*n in the c-th root of t minus target.", "quantifier": "every polynomial in s, cycle number, number of points, radius, target time", "why_tests_cant": "all series", "anchors": ["core/include/bertini2/endgames/cauchy.hpp: CircleTrack, ComputeCauchyApproximationOfXAtT0"]}
{"id": "C34", "title": "Cauchy endgame bookkeeping", "statement": "The number of Cauchy samples is always cycle_number*num_sample_points+1 when the average is formed (so the size check never throws), and the reported cycle number never exceeds the fail-safe maximum.", "quantifier": "every history of loop closings and tracking outcomes", "why_tests_cant": "all schedules", "anchors": ["core/include/bertini2/endgames/cauchy.hpp: InitialCauchyLoops, ComputeCauchySamples, RunImpl"]}
{"id": "C35", "title": "Endgame sampling converges to the target time", "statement": "Successive endgame sample times approach the target time geometrically for every sample factor in (0,1) and every target; hence the endgame stops.", "quantifier": "every start, target, sample factor, number of advances", "why_tests_cant": "unbounded sequences", "anchors": ["core/include/bertini2/endgames/base_endgame.hpp: ComputeInitialSamples", "core/include/bertini2/endgames/powerseries.hpp: AdvanceTime", "core/include/bertini2/endgames/cauchy.hpp: AdvanceTime"]}
{"id": "C36", "title": "Cycle number respects its bound", "statement": "The power series endgame never tries or reports a cycle number above max_cycle_number, and the chosen one minimises the prediction error among those tried.", "quantifier": "every sequence of samples", "why_tests_cant": "all inputs", "anchors": ["core/include/bertini2/endgames/powerseries.hpp: ComputeBoundOnCycleNumber, ComputeCycleNumber"]}
{"id": "C37", "title": "Security truncation", "statement": "With SecurityLevel 0 an endgame stops when two successive approximations exceed SecurityMaxNorm, with SecurityLevel 1 it does not, in both endgames.", "quantifier": "every sequence of approximation norms", "why_tests_cant": "all schedules", "anchors": ["core/include/bertini2/endgames/powerseries.hpp: RunImpl", "core/include/bertini2/endgames/cauchy.hpp: RunImpl"]}
{"id": "C38", "title": "Midpath check finds every crossing and only crossings", "statement": "Check returns true exactly when no two successful boundary points are within tolerance; it reports exactly the paths involved in a crossing, and a later check after the crossing is resolved returns true.", "quantifier": "every list of boundary points and every sequence of checks", "why_tests_cant": "all inputs and histories", "anchors": ["core/include/bertini2/nag_algorithms/midpath_check.hpp: MidpathChecker::Check"]}
{"id": "C39", "title": "Crossed paths are re-tracked", "statement": "Paths which crossed at the endgame boundary and came from distinct start points are re-run with tighter tolerance, up to the configured number of attempts.", "quantifier": "every boundary data set", "why_tests_cant": "all inputs", "anchors": ["core/include/bertini2/nag_algorithms/midpath_check.hpp: CrossedPath", "core/include/bertini2/nag_algorithms/zero_dim_solve.hpp: EGBoundaryAction, MidpathResolve"]}
{"id": "C40", "title": "Every start point is accounted for", "statement": "After Solve, each start point has metadata with its own index; a path has an endgame result exactly when its pre-endgame tracking succeeded.", "quantifier": "every number of paths and outcome of tracking", "why_tests_cant": "all schedules", "anchors": ["core/include/bertini2/nag_algorithms/zero_dim_solve.hpp: Solve, TrackBeforeEG, TrackDuringEG"]}
{"id": "C41", "title": "Multiplicity is the number of coincident successful endpoints", "statement": "After Solve, multiplicity of a successful path is the number of successful endpoints (itself included) within the tolerance, and Solve may be repeated.", "quantifier": "every list of endpoints and every number of Solve calls", "why_tests_cant": "all inputs and histories", "anchors": ["core/include/bertini2/nag_algorithms/zero_dim_solve.hpp: ComputeMultiplicities"]}
{"id": "C42", "title": "Observers are notified once each, in order", "statement": "Adding an observer twice registers it once; each event is delivered exactly once to each registered observer in order of registration, also when an observer removes itself while being notified.", "quantifier": "every history of add/remove/notify and every observer behaviour", "why_tests_cant": "histories and re-entrancy", "anchors": ["core/include/bertini2/detail/observable.hpp: Observable", "core/include/bertini2/trackers/observers.hpp: FirstPrecisionRecorder"]}
{"id": "C43", "title": "Pool purge drops exactly the unreferenced objects", "statement": "PurgeCache removes from the pool exactly the objects nobody else holds and keeps the rest in order.", "quantifier": "every pool content and reference counts", "why_tests_cant": "all states", "anchors": ["core/include/bertini2/pool/pool.hpp: Pool::PurgeCache"]}
{"id": "C44", "title": "Parsed expressions have the conventional meaning", "statement": "Parsing an expression respects the usual precedence: unary minus binds tighter than binary plus, left associativity, printing then parsing gives back the same function.", "quantifier": "every expression string", "why_tests_cant": "infinite language", "anchors": ["core/include/bertini2/io/parsing/function_rules.hpp: FunctionParser"]}
{"id": "C45", "title": "Any fresh legal name can be declared", "statement": "A legal identifier different from every declared name and keyword is accepted as a new variable or function name.", "quantifier": "every identifier and set of declared names", "why_tests_cant": "infinite set of names", "anchors": ["core/include/bertini2/io/parsing/system_rules.hpp: unencountered_symbol_"]}
{"id": "C46", "title": "Comment stripping", "statement": "Stripping comments from an input file removes the text from each first % of a line to the end of that line, and otherwise only indentation and blank lines; every other character, including white space inside a line, is kept in order.", "quantifier": "every input text", "why_tests_cant": "infinite language", "anchors": ["core/include/bertini2/io/parsing/classic_utilities.hpp: CommentStripper"]}
{"id": "C47", "title": "Arithmetic on systems does not change the operands", "statement": "a+b, N*a and Concatenate(a,b) return new systems and leave a and b evaluating as before.", "quantifier": "every pair of systems and points", "why_tests_cant": "all systems", "anchors": ["core/src/system/system.cpp: operator+=, operator*=, operator+, operator*, Concatenate"]}
{"id": "C48", "title": "Copies of a system behave like the original", "statement": "A copied, moved or swapped system evaluates, and differentiates, like the original, whatever was done before the copy.", "quantifier": "every history before the copy", "why_tests_cant": "histories unbounded", "anchors": ["core/src/system/system.cpp: System(System const&), swap"]}
{"id": "C49", "title": "Choice of evaluation method does not change results", "statement": "Eval and Jacobian give the same values whichever evaluation and derivative method is selected, whenever it is selected.", "quantifier": "every system, point, history of settings", "why_tests_cant": "all histories", "anchors": ["core/include/bertini2/system/system.hpp: EvalInPlace, JacobianInPlace, SetEvalMethod, SetDerivMethod"]}
{"id": "C50", "title": "Jacobian is never stale", "statement": "After any sequence of modifications of a system, Jacobian returns the derivative of the functions the system has now.", "quantifier": "every history of modifications", "why_tests_cant": "all histories", "anchors": ["core/src/system/system.cpp: Differentiate, Reorder, AddFunction*, Homogenize", "core/include/bertini2/system/system.hpp: is_differentiated_"]}
{"id": "C51", "title": "Multihomogeneous NumStartPoints is the Bezout number", "statement": "NumStartPoints of a multihomogeneous start system equals the multihomogeneous Bezout number of the target: the coefficient of the monomial given by the group dimensions in the product over the functions of the linear forms given by the group degrees.", "quantifier": "every square polynomial target, every grouping, homogenized or not", "why_tests_cant": "combinatorial identity over unbounded sizes", "anchors": ["core/src/system/start/mhom.cpp: MHomogeneous::GenerateValidPartitions, NumStartPoints", "core/src/system/system.cpp: System::VariableGroupSizesFIFO"]}
{"id": "C52", "title": "Multihomogeneous start points are the zeros of the start system", "statement": "Each StartPoint(index) of a multihomogeneous start system is a zero of the start system, and for coefficients in general position every zero of the start system is StartPoint(index) for some index below NumStartPoints.", "quantifier": "every target, every choice of random coefficients in general position, every index", "why_tests_cant": "random coefficients, unbounded sizes", "anchors": ["core/src/system/start/mhom.cpp: MHomogeneous::GenerateStartPointT, MHomogeneous::MHomogeneous"]}
{"id": "C53", "title": "Automatic patches normalise the variable groups", "statement": "After AutoPatch, the patch equations appended to the system are one per affine or homogeneous variable group, in order, and the equation of a group involves exactly the variables of that group (with its homogenizing variable).", "quantifier": "every sequence of variable-adding calls and homogenizations, every value of the variables, every choice of coefficients", "why_tests_cant": "depends on the order in which ungrouped variables and groups were added; tests use systems with a single group", "anchors": ["core/src/system/system.cpp: System::AutoPatchFIFO, System::VariableGroupSizesFIFO", "core/include/bertini2/system/patch.hpp: Patch::EvalInPlace"]}
{"id": "C54", "title": "Derivatives with Differential nodes agree with partial derivatives", "statement": "The tree returned by Differentiate() without a variable, evaluated for a variable v, has the same value as Differentiate(v), wherever either has a value.", "quantifier": "every tree, every variable, every point", "why_tests_cant": "all trees and points", "anchors": ["core/src/function_tree/symbols/variable.cpp: Variable::Differentiate", "core/src/function_tree/symbols/differential.cpp: Differential::FreshEval_d", "core/src/function_tree/roots/jacobian.cpp: Jacobian::EvalJ"]}
{"id": "C55", "title": "The homotopy of the zero-dim solver joins start and target", "statement": "The homotopy formed from a target system f and a start system g with path variable t evaluates to (1-t) f(x) + gamma t g(x) at every point: gamma g at t=1 and f at t=0; its Jacobian is the derivative of that, and its variables are those of the target.", "quantifier": "every target and start system not evaluated since their last change, every gamma, point and time", "why_tests_cant": "all systems and points; depends on sharing of function objects between temporaries", "anchors": ["core/include/bertini2/nag_algorithms/common/policies.hpp: CloneGiven::FormHomotopy", "core/src/system/system.cpp: operator+, operator*"]}
{"id": "C56", "title": "Power series extrapolation is exact on truncated Puiseux series", "statement": "For a path whose coordinates are polynomials in the c-th root of the distance to the target time, sampled on a ray with exact derivatives, the power series endgame reports cycle number c and extrapolates to the limit of the path exactly, as long as the degree is within what the interpolation nodes determine.", "quantifier": "every cycle number, number of points, polynomials, ray and sample times", "why_tests_cant": "all series and all sample positions", "anchors": ["core/include/bertini2/endgames/powerseries.hpp: ComputeCycleNumber, TransformToSPlane, ComputeApproximationOfXAtT0", "core/include/bertini2/endgames/interpolation.hpp: HermiteInterpolateAndSolve"]}
{"id": "C57", "title": "The number grammar", "statement": "The number grammar accepts exactly the decimal literals (optional minus sign, digits with an optional decimal point, optional exponent), passes the literal on unchanged, and the rational grammar accepts fractions of such literals.", "quantifier": "every text", "why_tests_cant": "infinite language", "anchors": ["core/include/bertini2/io/parsing/number_rules.hpp: LongNum"]}
{"id": "C58", "title": "Splitting an input file", "statement": "For every layout of a classic input file (CONFIG section, system section, with or without each of the markers CONFIG, INPUT and the two END;, in any mixture of cases) splitting the file returns exactly the text of the two sections; for every text the two sections are non-overlapping pieces of it in order, and a configuration section that never ends is reported.", "quantifier": "every text", "why_tests_cant": "infinitely many texts, nine alternative layouts tried in order with backtracking", "anchors": ["core/include/bertini2/io/parsing/classic_utilities.hpp: SplitInputFileParser, ParseInputFile"]}
{"id": "C59", "title": "Reading settings", "statement": "For each structure of settings and every text made of settings of that structure (each at most once, any order, any mixture of cases, any other text in between) reading succeeds and every setting has the value given, those not given keep their default; a setting given twice is an error; and reading succeeds on no other text. The same holds of the choice of precision, predictor and algorithm.", "quantifier": "every structure of settings, every text", "why_tests_cant": "all orders, cases and interleavings with other settings", "anchors": ["core/include/bertini2/io/parsing/settings_parsers/tracking.hpp", "core/include/bertini2/io/parsing/settings_parsers/endgames.hpp", "core/include/bertini2/io/parsing/settings_parsers/algorithm.hpp"]}
{"id": "C62", "title": "Integral powers of doubles", "statement": "pow of a complex double and an int is the power, computed with at most 2(log2|p|+1) multiplications, also for negative exponents of nonzero numbers.", "quantifier": "every number of a field, every int exponent but the least", "why_tests_cant": "all exponents", "anchors": ["core/include/bertini2/double_extensions.hpp: pow"]}
{"id": "C63", "title": "The test of an LU decomposition", "statement": "The test of an LU decomposition reports success exactly when every pivot is larger than 100 epsilon and no pivot exceeds the next by the factor 1/dummy precision; the code reported otherwise is that of the failing pivot nearest the last one; and on success every linear system with the factored matrix has exactly one solution.", "quantifier": "every matrix of every size, every epsilon and dummy precision", "why_tests_cant": "all matrices", "anchors": ["core/include/bertini2/eigen_extensions.hpp: IsSmallValue, IsLargeChange, LUPartialPivotDecompositionSuccessful"]}
{"id": "C60", "title": "Reading the text of a system", "statement": "Every text that writes a sequence of declarations and definitions in ordinary notation, with any white space, is read as the system with exactly the variable groups, variables, functions, constants, parameters, path variable and subfunctions declared, in that order, and the definitions given; whatever is accepted is the system of such a sequence, with every name legal, declared once, distinct from keywords and predefined symbols, and only declared names used; and every text gets a verdict.", "quantifier": "every text, every sequence of statements, every layout", "why_tests_cant": "infinitely many texts; symbol tables grow while the text is read", "anchors": ["core/include/bertini2/io/parsing/system_rules.hpp: SystemParser", "core/include/bertini2/io/parsing/system_parsers.hpp: System(std::string)", "core/src/system/system.cpp: AddVariableGroup, AddFunction, AddSubfunction, AddConstant, AddParameter, AddPathVariable"]}
{"id": "C64", "title": "What a tracker counts, how it raises and lowers precision, and from which point tracking starts", "statement": "At every step the counters of a tracker are the numbers of steps that moved the time and that did not, and the lengths of the current streaks of either; when a linear system cannot be solved the precision goes up by the amount prescribed for the streak of failures and the step is kept; when the precision criteria fail the precision goes up; the precision is lowered only after the configured number of consecutive successes and at most the configured number of times; and tracking starts from the start point refined at the lowest precision of the ladder at which refinement converges, or ends with a singular start point.", "quantifier": "every system, start point, time, configuration and every run of any length", "why_tests_cant": "the counters and the precision depend on the whole history of the run", "anchors": ["core/include/bertini2/trackers/base_tracker.hpp: IncrementBaseCountersSuccess, IncrementBaseCountersFail, ResetCountersBase", "core/include/bertini2/trackers/amp_tracker.hpp: InitialMatrixSolveError, AMPCriterionError, AdjustAMPStepSuccess, InitialRefinement, RefineStoredPoint"]}
{"id": "C61", "title": "Building functions with operators", "statement": "Every expression written over existing nodes and numbers with + - * / unary minus, pow and the named functions yields a node standing for the value ordinary arithmetic gives, and changes no existing function; *= and /= on a product multiply or divide that product in place.", "quantifier": "every expression, every graph of existing nodes, every value of the variables", "why_tests_cant": "infinitely many expressions; sharing and the combination of powers depend on what the operands are", "anchors": ["core/include/bertini2/function_tree/operators/arithmetic.hpp: operator+, operator-, operator*, operator/, operator*=, operator/=, pow, exp, log, sqrt", "core/include/bertini2/function_tree/operators/trig.hpp: sin, cos, tan, asin, acos, atan"]}
{"id": "C65", "title": "Random numbers", "statement": "A random number has the precision asked for and is generated with at least that many digits; real ones are in [-1,1], complex ones have both parts in [-1,1], units have modulus 1; and drawing one leaves the default precision as it was.", "quantifier": "every sequence of numbers the generators may produce, every precision, every state", "why_tests_cant": "the outcome depends on the numbers drawn; a test sees a few draws", "anchors": ["core/include/bertini2/random.hpp: RandomMp, RandomReal, RandomRealAssign, rand, rand_unit, RandomComplexAssign, RandomUnitAssign", "core/src/basics/random.cpp: RandomMp", "core/include/bertini2/num_traits.hpp: RandomUnit"]}
{"id": "C66", "title": "A linear slice evaluates to its equations at every precision, and a witness set keeps its points", "statement": "A slice made from a coefficient matrix and constants evaluates, in both number types and after any sequence of precision changes, to coefficients times point plus constants, and its Jacobian is the derivative of that; lowering and raising the precision loses no digits of the coefficients; the working coefficients have the precision the slice reports; an orthogonal slice has orthogonal rows taken from the QR factor; a slice read back from an archive evaluates like the one written; a homogeneous slice can be made. A witness set holds the points given to it, GetPoint gives them by index and throws out of range, and IsConsistent says whether variables = functions + dimension.", "quantifier": "all coefficient matrices, constants, points, rounding functions and sequences of precisions; all sequences of AddPoint and SetPoints and all indices", "why_tests_cant": "The coefficients are random and the precision history unbounded; tests evaluate one slice at one precision.", "anchors": ["core/include/bertini2/system/slice.hpp: LinearSlice::Make, Eval, Jacobian, Precision, serialize", "core/include/bertini2/nag_datatypes/witness_set.hpp: WitnessSet::AddPoint, SetPoints, GetPoint, IsConsistent"]}
{"id": "C67", "title": "Samples and times are brought to one precision without losing digits", "statement": "After EnsureAtUniformPrecision every time and every coordinate of every sample (and derivative) has the precision returned, which is the new default precision; no number is given fewer digits than it had; the precision is not raised beyond what some number already has. In fixed precision nothing changes and the largest precision is returned.", "quantifier": "all lists of times, samples and derivatives, with any precisions, any default precision and any rounding function", "why_tests_cant": "Which branch is taken depends on every combination of precisions in containers of any length; tests use uniform samples.", "anchors": ["core/include/bertini2/trackers/adaptive_precision_utilities.hpp: SetPrecision, MaxPrecision, EnsureAtUniformPrecision", "core/include/bertini2/trackers/fixed_precision_utilities.hpp: EnsureAtUniformPrecision", "core/include/bertini2/eigen_extensions.hpp: Precision"]}
{"id": "C68", "title": "The precision recorded for each path is what was used on that path", "statement": "After solving, a path's metadata say whether the precision was raised on that path, at what time first, and the largest precision used on it; the recorder gives the precision at the start of tracking; the precision accumulator has seen exactly the precisions the tracker had.", "quantifier": "all histories of paths tracked before and during the endgame, in any order and number, all sequences of precision changes and events in them, all initial contents of the recorder", "why_tests_cant": "Recorders live across paths, so each path's record depends on the whole history; tests look at one path.", "anchors": ["core/include/bertini2/trackers/observers.hpp: FirstPrecisionRecorder, MinMaxPrecisionRecorder, PrecisionAccumulator", "core/include/bertini2/trackers/amp_tracker.hpp: ChangePrecision, PostTrackCleanup", "core/include/bertini2/trackers/events.hpp: TrackingStarted", "core/include/bertini2/nag_algorithms/zero_dim_solve.hpp: TrackSinglePathBeforeEG, TrackSinglePathDuringEG"]}
{"id": "C69", "title": "Multiprecision numbers written to a file are read back", "statement": "The text the classic generator writes for a real or complex multiprecision number is accepted by the classic parser, which hands the same text to the number constructor with at least as many digits as the text has; nothing that is not a number is accepted.", "quantifier": "all texts of numbers: sign, digits, point, exponent, with any white space around them, and every default precision", "why_tests_cant": "The forms a number's text can take are unbounded, and the generator and parser are tested on a few small numbers.", "anchors": ["core/include/bertini2/io/generators.hpp: Classic::generate", "core/include/bertini2/io/parsing/number_parsers.hpp: MpfrFloatParser, MpfrComplexParser, classic::parse", "core/include/bertini2/io/parsing/number_rules.hpp: LongNum"]}
{"id": "C70", "title": "Start points given by the user are used as given", "statement": "A start system made from points given by the user has exactly those points as start points, in the order given; asked for the other number type it converts every coordinate; exactly the indices below the number of points are defined; and saving and restoring it gives the same start points.", "quantifier": "all lists of points in either number type, all systems, all indices, all default precisions, all archives written by it", "why_tests_cant": "A test saves or reads one short list; the claim is about every list and every continuation of the archive.", "anchors": ["core/include/bertini2/system/start/user.hpp: User, save_construct_data, load_construct_data", "core/src/system/start/user.cpp: User::User, NumStartPoints, GenerateStartPoint", "core/include/bertini2/system/start_base.hpp: StartSystem::StartPoint"]}
{"id": "C71", "title": "After changing the working precision, functions are evaluated with all their digits", "statement": "When the default precision and then the precision of functions is changed, every number inside the functions has the new precision, and the next evaluation after a reset gives the value computed from the exact constants rounded to the new precision; digits lost at a lower precision are not lost for good. The same holds for the constants of straight line programs and the coefficients of products of linears.", "quantifier": "all sets of functions with any sharing of subexpressions, all rounding functions, all sequences of precision changes, assignments, resets and evaluations", "why_tests_cant": "Caches, flags and early exits make the result depend on the whole history and on the sharing between functions.", "anchors": ["core/src/function_tree/symbols/number.cpp: Number::precision, FreshEval_mp", "core/src/function_tree/operators/operator.cpp: precision, Reset", "core/src/function_tree/roots/function.cpp: Handle::precision, Handle::Reset", "core/src/function_tree/node.cpp: EvalInPlace, ResetStoredValues", "core/include/bertini2/function_tree/symbols/linear_product.hpp: precision, PrecisionChangeSpecific", "core/src/system/straight_line_program.cpp: StraightLineProgram::precision"]}
{"id": "C72", "title": "A predictor uses what was asked for last and reports truthfully", "statement": "After a predictor is constructed and its method, system and precision are changed in any order and any number of times, it uses the coefficients, order, stages and error weights of the last method, storage for the last system, and the last precision throughout. A prediction succeeds exactly if the Runge-Kutta step succeeds and the precision criteria A and C hold; it asks for more precision exactly if the step succeeds and a criterion fails; otherwise it returns the step's failure. The condition number is re-estimated after the configured number of steps. The constant predictor returns the current point.", "quantifier": "all methods, systems, precisions and sequences of changes; all right hand sides, step results, norms, criteria outcomes and runs of predictions", "why_tests_cant": "the state of the object depends on the whole history of changes, and the prediction's code on every combination of failing solves and criteria along a run", "anchors": ["core/include/bertini2/trackers/explicit_predictors.hpp: ExplicitRKPredictor, PredictorMethod, ChangeSystem, ChangePrecision, Predict, FullStep, SetNormsCond", "core/include/bertini2/trackers/amp_tracker.hpp: Predict"]}
{"id": "C73", "title": "The precision criteria and the bounds and digits derived for them", "statement": "Criteria A, B and C hold with a number of digits exactly if the published inequalities on condition numbers, error bounds, residual, tolerance and safety digits hold, and more digits never violate one that held. The precision the tracker computes as required satisfies criteria B and C at the state it was computed from. The digits computed for a range of step sizes make every step in it representable. A configuration made from a system has the documented epsilon, Phi and Psi, its bounds on degree and coefficients are upper bounds, and bounds set by the user take effect.", "quantifier": "all norms, tolerances, residuals, iterations, safety digits, step sizes, times to go, degrees, polynomials and random points, all sequences of settings", "why_tests_cant": "the inequalities range over all real numbers and the bounds over all systems and random draws", "anchors": ["core/include/bertini2/trackers/amp_criteria.hpp: CriterionA, CriterionB, CriterionC, D", "core/include/bertini2/trackers/config.hpp: AdaptiveMultiplePrecisionConfig", "core/include/bertini2/trackers/amp_tracker.hpp: DigitsB, DigitsC, MinRequiredPrecision_BCTol, MinDigitsForStepsizeInterval", "core/src/system/system.cpp: CoefficientBound, DegreeBound"]}
{"id": "C74", "title": "The solution lists and data files of a zero-dimensional solve", "statement": "After Solve, the list of nonsingular solutions has, in path order, the dehomogenized end points of exactly the paths that succeeded and whose end point is not within the tolerance of another path's; the list of all solutions has one entry per path; the main and raw data files list exactly the paths whose endgame was started, each with its own index, metadata and end point.", "quantifier": "all numbers of paths, all tracker and endgame outcomes, tolerances and numbers of calls of Solve", "why_tests_cant": "it depends on every combination of path outcomes and coincidences", "anchors": ["core/include/bertini2/nag_algorithms/output.hpp: NonsingularSolutions, AllSolutions, Classic::MainData, Classic::RawData", "core/include/bertini2/nag_algorithms/zero_dim_solve.hpp: Solve, ComputeMultiplicities"]}
{"id": "C75", "title": "Trackers as objects: settings and copies", "statement": "After any history of making, copying, assigning and configuring trackers, each tracker has the system, predictor method and order, storage, tolerance, truncation threshold, step size and Newton settings its user asked for last, whatever was done to other trackers. Setup either takes effect as a whole or throws and changes nothing, and accepts only positive thresholds. The digits stored for a tolerance are the decimals needed to resolve it.", "quantifier": "all histories of any number of trackers, systems and settings; all tolerances", "why_tests_cant": "trackers are copied and reconfigured in any order; sharing between copies shows only in particular histories", "anchors": ["core/include/bertini2/trackers/base_tracker.hpp: Tracker, Setup, SetPredictor, SetSystem, SetTrackingTolerance, SetInfiniteTruncationTolerance", "core/include/bertini2/num_traits.hpp: TolToDigits", "core/include/bertini2/nag_algorithms/zero_dim_solve.hpp: SetTracker"]}
{"id": "C76", "title": "Settings and parts of the zero-dimensional solver", "statement": "After any history of settings, setups and calls, Solve works with the values asked for last, for every setting of the solver: tolerances, thresholds, times, precision, attempts, path variable name, retrack factor, midpath tolerance, endgame settings. A solver made from run-time options has the start system, tracker and endgame asked for; the constructor accepts exactly the systems it can solve.", "quantifier": "all histories of settings and calls of Solve, all values, all tracker and endgame behaviours, all combinations of options", "why_tests_cant": "that a setting is used at all, and with its current value, is a statement about all histories", "anchors": ["core/include/bertini2/nag_algorithms/zero_dim_solve.hpp: ZeroDim, DefaultSetup, Solve, ConsistencyCheck", "core/include/bertini2/nag_algorithms/common/config.hpp", "core/include/bertini2/nag_algorithms/common/policies.hpp: CloneGiven, RefToGiven", "core/include/bertini2/blackbox/switches_zerodim.hpp: MakeZeroDim", "core/include/bertini2/blackbox/user_homotopy.hpp: MakeUserHom"]}
{"id": "C77", "title": "Homogenizing whole systems", "statement": "Homogenize of a polynomial system, homogeneous in its homogeneous groups, succeeds and gives each variable group a homogenizing variable; setting these to one gives back every function at every point; afterwards each function is homogeneous in every group with its variable, of its degree in the group, and still homogeneous in the homogeneous groups. IsHomogeneous and IsPolynomial accept the result, and Homogenize called again changes nothing. IsPolynomial looks at all variables; MultiDegree reports the degree in each variable and marks non-polynomial ones by negative entries.", "quantifier": "all systems of function trees with any numbers of functions, groups and variables, all values of the variables", "why_tests_cant": "homogeneity is a statement about all values and all trees; a test has particular systems", "anchors": ["core/src/system/system.cpp: Homogenize, IsHomogeneous, IsPolynomial", "core/include/bertini2/system/system.hpp: Homogenize, IsHomogeneous, IsPolynomial", "core/include/bertini2/function_tree/node.hpp: MultiDegree", "core/src/function_tree/operators/arithmetic.cpp: MultiDegree"]}
{"id": "C78", "title": "The precision a system works in", "statement": "After setting the default precision and the precision of a system to p, whatever was done before, the system can be evaluated at every point and time of p digits, and goes on to do so until another precision is set; precision(p) reaches the system, its variables and path variable and nothing else; evaluation changes no precision; and points, times or variables of another precision are refused.", "quantifier": "all histories of making variables and systems, sharing variables, adding, copying, setting precisions and methods, and evaluating; all precisions, points and times", "why_tests_cant": "whether variables, compiled program and system agree depends on the order of all earlier calls, also on other systems; tests use one order", "anchors": ["core/src/system/system.cpp: precision, Differentiate", "core/include/bertini2/system/system.hpp: SetVariables, SetPathVariable, EvalInPlace, AssumeUniformPrecision, SetEvalMethod", "core/include/bertini2/system/straight_line_program.hpp: SetVariableValues, SetPathVariable", "core/src/system/straight_line_program.cpp: precision, Compile", "core/src/function_tree/symbols/variable.cpp: set_current_value"]}
{"id": "C79", "title": "Saving and loading", "statement": "A system, a start system or a function saved to an archive and loaded again is the one that was saved: it has the same members, nodes shared before are shared after and no others, and every function and derivative has the same value at every point; and whatever can be built can be saved.", "quantifier": "every system and every graph of nodes, with any sharing, every point", "why_tests_cant": "the number of shapes of expression graphs, with sharing, is unbounded; tests save a few systems", "anchors": ["core/include/bertini2/system/system.hpp: System::serialize", "core/include/bertini2/function_tree/node.hpp: Node::serialize", "core/include/bertini2/function_tree/symbols/differential.hpp: Differential", "core/include/bertini2/function_tree/symbols/linear_product.hpp: LinearProduct::serialize", "core/include/bertini2/system/start/mhom.hpp: MHomogeneous::serialize"]}
{"id": "C80", "title": "Matrix and number helpers", "statement": "The precision reported for a matrix of multiple precision numbers is that of all its entries; setting the precision reaches every entry; two numbers count as close exactly if they are equal or differ by at most e times the larger one, whatever their order and scale; the Kahan matrix has its defining entries whatever the memory held; a matrix saved to an archive and loaded is the one saved; the maximum of several arguments is the greatest.", "quantifier": "every matrix of every shape, every entry, number and tolerance, every ordering", "why_tests_cant": "shapes and values are unbounded; tests use one or two matrices by column", "anchors": ["core/include/bertini2/eigen_extensions.hpp: Precision, PrecisionRequireUniform, IsSymmRelDiffSmall, KahanMatrix", "core/include/bertini2/eigen_serialization_addon.hpp: save, load", "core/include/bertini2/mpfr_extensions.hpp: max"]}
{"id": "C81", "title": "An adaptive precision tracker is at one precision", "statement": "From the start of a track on, after any sequence of steps, refinements and changes of precision between 16 and 1000 digits, no internal assertion has failed and the global default, the system, the predictor, the corrector, the times, the step and every vector of the tracker are at the current precision; a change of precision only rounds the current point, so that raising the precision keeps its value and changing back restores it; the solution returned is the current point with every coordinate at the precision reached, and with preservation of precision the tracker returns to the precision of the start point; the end time is the one asked for at the current precision.", "quantifier": "every previous state of the tracker, start point, sequence of operations and rounding", "why_tests_cant": "the order in which precision goes up and down depends on the path; tests follow a few paths", "anchors": ["core/include/bertini2/trackers/amp_tracker.hpp: AMPTracker::ChangePrecision, TrackerLoopInitialization, PrecisionSanityCheck, CopyFinalSolution, PostTrackCleanup, RefineImpl"]}
{"id": "C82", "title": "A system answers for the values set last", "statement": "Eval(x), Eval(x,t), Jacobian(x), Jacobian(x,t), TimeDerivative(x) and TimeDerivative(x,t) return the functions (with the patch), derivatives and time derivatives at the given point and time and at the values last given to everything else, whatever was set, reset and evaluated on the system before and however its functions and derivatives share nodes. Eval(), Jacobian() and TimeDerivative() answer for the previously set values. A call which throws changes nothing. TimeDerivative into a given vector writes only into it.", "quantifier": "every system (derivatives as trees or as Jacobian nodes, with or without path variable, implicit parameters and patch), every history of calls in both number types", "why_tests_cant": "stale values appear only after particular sequences of setting, resetting and evaluating; tests call a few sequences", "anchors": ["core/include/bertini2/system/system.hpp: System::Eval, EvalInPlace, Jacobian, JacobianInPlace, TimeDerivative, TimeDerivativeInPlace, SetVariables, SetPathVariable, SetImplicitParameters, SetAndReset, Reset, ResetFunctions, ResetJacobian, ResetTimeDerivatives"]}
{"id": "C83", "title": "The Cauchy endgame starts its loops where the path behaves like a fractional power", "statement": "The first phase of the Cauchy endgame ends successfully only when the configured number of latest estimates of c/k agree with their neighbours to within the configured ratio, or the cutoff time is reached, and it ends as soon as that is so. The estimate is c/k for a path that behaves like t^(k/c). The samples on a circle are rejected exactly when the distance is not below the ratio cutoff time and their sizes differ by more than the configured ratio and the final tolerance.", "quantifier": "every configuration, target, tracker and number of steps; every set of circle samples; every exponent, sample factor, point and direction", "why_tests_cant": "the decision depends on histories of estimates of any length and on real parameters; tests run a few paths with the default settings", "anchors": ["core/include/bertini2/endgames/cauchy.hpp: CauchyEndgame::GetIntoEGZone, ComputeCOverK, CheckForCOverKStabilization, RatioEGOperatingZoneTest, AdvanceTime"]}
{"id": "C84", "title": "Settings given to an endgame in any order are the ones it uses", "statement": "An endgame can be constructed with any subset of the settings objects it needs, in any order. The program compiles exactly when the given settings are of pairwise different types that the endgame needs; then every given setting is the one the endgame uses, every other one has its default value, and the order makes no difference. After any sequence of calls of Set, Get returns the value last set, else the given one, else the default. Get and Set of a setting the endgame has not got do not compile.", "quantifier": "every list of needed types, every list of given settings, every default, every sequence of calls of Set", "why_tests_cant": "the number and order of arguments is unbounded, and tests only construct endgames with one or two settings", "anchors": ["core/include/bertini2/detail/enable_permuted_arguments.hpp: Unpermute, IndexByType, GetByIndex", "core/include/bertini2/detail/configured.hpp: Configured::Get, Configured::Set", "core/include/bertini2/endgames/base_endgame.hpp: EndgameBase constructors", "core/include/bertini2/endgames/config.hpp: AlgoTraits"]}
{"id": "C85", "title": "Refining the samples of an endgame is reported faithfully", "statement": "When an endgame refines its samples, success is reported only if Newton's method converged for every sample at its time, to the given tolerance within the given number of iterations, and otherwise the failure is reported and the endgame does not go on as if nothing had happened. If Newton's method needs more digits, it is tried again from the sample in the next higher precision, not beyond the maximum precision set. Afterwards samples, times, default, tracker and system have one precision.", "quantifier": "every list of samples and times, every precision, every behaviour of Newton's method", "why_tests_cant": "failures of Newton's method during an endgame depend on path and precision and are rare in tests", "anchors": ["core/include/bertini2/endgames/amp_endgame.hpp: AMPEndgame::RefineSampleImpl", "core/include/bertini2/endgames/fixed_prec_endgame.hpp: FixedPrecEndgame::RefineSampleImpl", "core/include/bertini2/endgames/base_endgame.hpp: EndgameBase::RefineAllSamples", "core/include/bertini2/endgames/cauchy.hpp: ComputeCauchyApproximationOfXAtT0", "core/include/bertini2/trackers/amp_tracker.hpp: AMPTracker::RefineImpl"]}
{"id": "C86", "title": "Simplifying a system changes no values", "statement": "Simplifying a system, or letting it simplify its derivatives when it is differentiated, ends for every system, also if its functions and derivatives share nodes. Afterwards every function and every derivative has, at every point, the value it had before; every variable holds the values it held; and evaluating functions and derivatives next gives their values at the values the variables hold. In a simplified function no sum is an operand of a sum and no product of a product.", "quantifier": "every graph of nodes with any sharing, every state of the cached values, every random numbers drawn, every point", "why_tests_cant": "simplification changes shared nodes in place and decides by evaluating at random numbers, so the outcome depends on sharing, on values cached earlier and on the numbers drawn", "anchors": ["core/src/function_tree/simplify.cpp: Simplify", "core/src/function_tree/operators/arithmetic.cpp: EliminateZeros, EliminateOnes, ReduceDepth, ReduceSubSums, ReduceSubMults", "core/src/system/system.cpp: SimplifyFunctions, SimplifyDerivatives, Simplify, Differentiate"]}
{"id": "C87", "title": "The systems that come with the library", "statement": "GriewankOsborn has the origin as its only finite zero, with multiplicity three, and one zero at infinity of the same kind; CrossedPaths has paths that cross at t=1/3 and t=2/3; the zeros of Sphere are the points of the unit sphere.", "quantifier": "all points of every field in which 2 and 3 are not zero, all times and start systems", "why_tests_cant": "The zero set of a polynomial system, its multiplicity and the times at which paths cross range over all points; evaluating at a few points shows none of them.", "anchors": ["core/src/system/precon.cpp: Precon::GriewankOsborn, Precon::CrossedPaths, Precon::Sphere", "core/include/bertini2/system/precon.hpp"]}
{"id": "C88", "title": "Degree and homogeneity in one variable or in all, and the degrees of a total degree start system", "statement": "When Degree(v), or Degree() for all variables together, is not negative, the function is a polynomial of at most that degree along every line on which only those variables move. A function accepted by IsHomogeneous(v), or IsHomogeneous() for all variables, is homogeneous in these variables, of the reported degree if that is not negative, and for such functions the degree is exact. Degree() is at most the degree with respect to a group with all variables. A total degree start system is made with the degrees of the functions of its target in the variables of the target, so that NumStartPoints is the Bezout number. The constructor accepts a target exactly if it has one affine variable group, no homogeneous ones and no path variable, as many functions and patches as variables, and is polynomial; it throws otherwise.", "quantifier": "every expression tree, variable or none, values of the variables, points and lines, every target system", "why_tests_cant": "all trees and all points", "anchors": ["core/src/function_tree/operators/arithmetic.cpp: SumOperator::Degree, MultOperator::Degree, PowerOperator::Degree, IsHomogeneous", "core/src/function_tree/symbols/variable.cpp: Variable::Degree", "core/src/system/system.cpp: System::Degrees", "core/src/system/start/total_degree.cpp: SanityChecks, CopyDegrees"]}
{"id": "C89", "title": "What the zero-dimensional solver sets up: its paths start at all solutions of the start system and end at the solutions of the target", "statement": "For a square polynomial target in one affine variable group, constructing the solver and letting it set up its systems succeeds. The number of paths is the product of the degrees. Every start point is a zero of the homotopy at t = 1 and lies on the patch; conversely every zero at t = 1 on the patch is a start point of exactly one index. A point whose homogenizing coordinate is not zero is a zero of the homotopy at t = 0 exactly if, dehomogenized, it solves the target the user gave, and every solution not sent to infinity by the patch is obtained from exactly one such point on the patch. At every time the homotopy is homogeneous of the degrees of the target.", "quantifier": "every square target of polynomials in one affine group, every choice of the random numbers and of the new variable, every point, time and start point index", "why_tests_cant": "all targets, all points and all random choices", "anchors": ["core/include/bertini2/nag_algorithms/common/policies.hpp: CloneGiven::PrepareTarget, FormStart, FormHomotopy, SystemSetup", "core/src/system/system.cpp: System::Homogenize, System::AutoPatch", "core/src/system/start/total_degree.cpp: TotalDegree"]}
{"id": "C90", "title": "The functions of a system given as text have the values the text defines", "statement": "A text in ordinary notation whose functions are all defined is accepted, and at every point the functions of the system have the values determined by the definitions: the right hand side of the last definition of a name, evaluated with the values of the names in it, variables having the coordinates of the point and pi, e, i their values. If every name is defined once and before it is used, these are the values obtained by carrying out the statements one after the other.", "quantifier": "every text of declarations and definitions in ordinary notation (and every accepted text), every field, every point, every meaning of literals and elementary functions", "why_tests_cant": "all texts and all points; chains of definitions of any length", "anchors": ["core/include/bertini2/io/parsing/system_rules.hpp: SystemParser", "core/src/function_tree/roots/function.cpp: Handle::SetRoot, Handle::FreshEval_d, Handle::Reset"]}
{"id": "C91", "title": "Converting settings to ini format", "statement": "A text of settings, one on a line as \"Name: value ; remark\", with blank lines and blanks anywhere before names and values, is converted to the lines \"name=value\" in the same order, the names in small letters, the values unchanged and the remarks removed; the last line may lack its end.", "quantifier": "every text of settings, of any length; totality for every text", "why_tests_cant": "all texts", "anchors": ["core/include/bertini2/settings/configIni_parse.hpp: ConfigToIni"]}
{"id": "C92", "title": "A system given as text is solved as it is written", "statement": "For a text in ordinary notation with one variable group, as many functions as variables, every name defined once and before it is used, and polynomials on the right hand sides: the parser accepts it, the zero-dimensional solver sets up a homotopy for it, the number of paths is the product of the degrees, the start points are exactly the zeros at t=1 on the patch, a finite point is a zero at t=0 exactly if dividing it by its first coordinate gives a point at which carrying out the statements of the text gives every function the value 0, and no such point is missing unless the patch sends it to infinity.", "quantifier": "every such text, every numbering of the variables, all random numbers, every meaning of decimal literals and elementary functions, every point", "why_tests_cant": "all texts, all points and all random choices; the claim joins parser, system, homogenization, patch and start system", "anchors": ["core/include/bertini2/io/parsing/system_rules.hpp: SystemParser", "core/include/bertini2/nag_algorithms/common/policies.hpp: CloneGiven::SystemSetup", "core/src/system/system.cpp: System::Homogenize, System::AutoPatch", "core/src/system/start/total_degree.cpp: TotalDegree"]}
{"id": "C93", "title": "Paths of a homotopy that is linear in the unknowns are tracked exactly to their end", "statement": "If every function of the homotopy is linear in the unknowns (with coefficients that may depend on the time), there are as many functions as unknowns, and at every time of the segment the values determine the point, then the fixed precision tracker with the Newton corrector answers Success: no step fails, at most as many steps are taken as step sizes fit into the segment, every point reached is an exact solution at its time, and at the time 0 it is the only solution. The predictor only has to succeed; what it predicts does not matter.", "quantifier": "every such system of functions of any size, every start point, every sequence of predictions, every positive tolerance, every allowed number of Newton iterations from two on, all stepping settings whose steps cover the segment, every pivot choice", "why_tests_cant": "all systems, all points, all predictions and all runs of the tracker; the claim joins function trees, their derivatives, the linear solver, Newton's method and the tracking loop", "anchors": ["core/include/bertini2/trackers/newton_corrector.hpp: NewtonCorrector::Correct, EvalIterationStep", "core/include/bertini2/trackers/fixed_precision_tracker.hpp: TrackerIteration, PreIterationCheck", "core/include/bertini2/trackers/base_tracker.hpp: TrackPath", "core/include/bertini2/system/system.hpp: System::SetAndReset, JacobianInPlace"]}
{"id": "C94", "title": "A linear target is solved end to end", "statement": "If the target has one variable group, as many functions as variables and every function is linear in the variables, then the zero-dimensional solver's set-up has one start point, and the tracker started there answers Success at time 0 at a point (h, xs) of the patch. Either h is not 0 and xs/h is the only solution of the target, or h is 0 and the target has no solution at all. For every accepted target, linear or not, the functions evaluated along the path have the values of the homotopy and the last one that of the patch equation. The same holds for a system given as text whose functions all have degree one and which is written without powers, with the solutions of the equations as written.", "quantifier": "every linear square target of any size, all random numbers of the patch and the start system, every nonzero random number of the homotopy for which the homotopy with the patch determines the point at each time of the segment, every sequence of predictions, all stepping settings whose steps cover the segment, every positive tolerance, every pivot choice", "why_tests_cant": "all targets, random numbers and predictions; the claim joins homogenization, patch, start system, homotopy, derivatives, linear solver, Newton's method and the tracking loop, and says the end point is the only solution", "anchors": ["core/include/bertini2/nag_algorithms/zero_dim_solve.hpp: DefaultSetup", "core/include/bertini2/nag_algorithms/common/policies.hpp: CloneGiven::FormHomotopy", "core/src/system/start/total_degree.cpp: GenerateFunctions, GenerateStartPoint", "core/src/system/system.cpp: operator+, operator*, AutoPatch", "core/include/bertini2/trackers/base_tracker.hpp: TrackPath", "core/include/bertini2/trackers/newton_corrector.hpp: NewtonCorrector::Correct"]}
{"id": "C95", "title": "Almost every random number of the homotopy makes a linear target solvable", "statement": "If a linear square target has one solution and neither the solution nor the start point lies at infinity of the patch, then there are finitely many numbers, at most as many as variables, such that for every nonzero random number gamma that is not a positive multiple of one of them the homotopy determines the point at every time from 1 to 0, and the tracker started at the one start point answers Success at time 0 at a point whose coordinates divided by the first are the solution. Some nonzero gamma is always left.", "quantifier": "every linear square target of any size with one solution, all random numbers of the patch and of the start system off two hyperplanes, all random numbers gamma off finitely many rays, every sequence of predictions, all stepping settings whose steps cover the segment, every positive tolerance, every pivot choice", "why_tests_cant": "gamma is drawn at random once per run and the bad ones have probability zero; a test sees only the numbers it drew and cannot tell a safe homotopy from a lucky one", "anchors": ["core/include/bertini2/nag_algorithms/common/policies.hpp: CloneGiven::FormHomotopy", "core/include/bertini2/nag_algorithms/zero_dim_solve.hpp: DefaultSetup", "core/src/system/start/total_degree.cpp: GenerateFunctions", "core/src/system/system.cpp: AutoPatch"]}
{"id": "C96", "title": "The data files say unambiguously what was found", "statement": "From the text of a raw data file the number of variables, the target's text and, for every path written, the path index, precision, coordinates, residuals, condition number, accuracy, times, cycle number and success code are recovered without ambiguity; from the main data file also the names of the variables, solution index, multiplicity and both success codes. The lines of the k-th path written are at fixed places, n+12 lines per path in the raw and n+16 in the main data file, and a line with a coordinate is read back by the library's own number parser.", "quantifier": "all numbers of variables and names, all lists of paths with any mixture of success codes, all texts of numbers without spaces and line ends, all texts of the systems, any number of paths", "why_tests_cant": "whether two different results could produce the same file, or a reader lose its place, depends on all numbers of variables, paths and failures; a test reads a few files", "anchors": ["core/include/bertini2/nag_algorithms/output.hpp: Classic::MainData, Classic::RawData, EndPointMDFull, EndPointMDRaw", "core/include/bertini2/io/generators.hpp: Classic::generate", "core/include/bertini2/io/parsing/number_parsers.hpp: classic::parse"]}
{"id": "C97", "title": "What a tracker tells its observers is enough to write down the path", "statement": "Observing a fixed precision tracker does not change what it does. Its events are one announcement of start and end, then for every step either the events of a failed or those of a successful one, then the end of tracking, exactly once and last; a truncation is announced exactly if the tracker returns GoingToInfinity. Each event is true of the tracker's state while it is told. An observer which asks for the time and point at each successful step has the tracked path: it begins at the start point, each point was corrected from a prediction made at the one before, and at the end it agrees with the tracker's time, point and numbers of steps. Observers glued together gather what each would gather alone.", "quantifier": "all settings, start points, times, predictors, correctors and divergence tests with any answers, all numbers of steps; all finite collections of observers", "why_tests_cant": "the order of events depends on every combination of failing predictions, corrections and truncation along paths of any length", "anchors": ["core/include/bertini2/trackers/base_tracker.hpp: Tracker::TrackPath", "core/include/bertini2/trackers/fixed_precision_tracker.hpp: TrackerIteration, OnStepSuccess, OnStepFail, OnInfiniteTruncation, PostTrackCleanup, TrackerLoopInitialization", "core/include/bertini2/trackers/events.hpp: TrackingEvent", "core/include/bertini2/trackers/observers.hpp: AMPPathAccumulator", "core/include/bertini2/detail/observer.hpp: MultiObserver"]}
{"id": "C98", "title": "The adaptive precision tracker tells its observers the path and every change of precision on it", "statement": "Observing an adaptive precision tracker does not change what it does. Its events are one announcement of the path, the changes of precision of the initial refinement and possibly that the start point is singular, then for every step the events of a failed or successful one with at most one change of precision, then the end of tracking, last. Each event is true of the tracker's state while it is told. An observer which knows the precision of the start point and listens to the changes knows the tracker's precision at every later event. An observer which asks for time and point at each successful step has the tracked path, up to changes of precision of its points, and the numbers of steps.", "quantifier": "all settings, start points, precisions of at least double, times, predictors, correctors, refinements, precision criteria and divergence tests with any answers, all numbers of steps", "why_tests_cant": "which events come in which order, and whether a change of precision could go untold, depends on every combination of failures, precision criteria and refinements along paths of any length", "anchors": ["core/include/bertini2/trackers/base_tracker.hpp: Tracker::TrackPath", "core/include/bertini2/trackers/amp_tracker.hpp: TrackerIteration, TrackerLoopInitialization, InitialRefinement, ChangePrecision, OnStepSuccess, OnStepFail, OnInfiniteTruncation, PostTrackCleanup", "core/include/bertini2/trackers/events.hpp: TrackingEvent, PrecisionChanged"]}
{"id": "C99", "title": "The power series endgame tells its observers the approximations and the verdict of a run", "statement": "Observing a power series endgame does not change what it does. A run which returns ends with an event. That event is Converged exactly when Success is returned, and then no failure was told; otherwise it is EndgameFailure or an event derived from it, and Converged was never told. MinTrackTimeReached and SecurityMaxNormReached are told only in runs which return that code, and always in those unless the code came from the tracker or the refinement. ApproximatedRoot is told once for each approximation of the run but the first, and FinalApproximation is that approximation while it is told. At the last event FinalApproximation is the last approximation of the run; a run which made none leaves the one of an earlier run. If no tracking and no refinement fails, the observer can count the tracked pieces and the refinements.", "quantifier": "all settings, start and target times, start points, trackers, refinements, extrapolations and dehomogenizations with any answers, all numbers of turns of the loop", "why_tests_cant": "which events come in which order depends on every combination of failures of tracking, refinement and security checks in runs of any length", "anchors": ["core/include/bertini2/endgames/powerseries.hpp: PowerSeriesEndgame::RunImpl, AdvanceTime", "core/include/bertini2/endgames/base_endgame.hpp: RefineAllSamples, FinalApproximation", "core/include/bertini2/endgames/events.hpp: EndgameEvent, EndgameFailure, EndgameSuccess"]}
