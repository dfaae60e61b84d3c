C01	proved	Every tree, over any field, with the elementary functions and complex powers as oracles and the integer test of exponents idealised.
C02	partial	Upper bound for every polynomial tree; attained on homogeneous trees whose negations and powers mention one group variable. Equality is refuted by (x+y)^2, the certificate by -(1/x+y).
C03	proved	Every tree, group and point.
C04	partial	Proved when every negation and power mentions at most one group variable; refuted in general by -(x+y)+x.
C05	partial	Proved when every negation and power mentions at most one group variable; refuted in general by -(x+y)+x*y.
C06	proved	any field; specification by dual numbers
C07	proved	real points of the open domain; general powers restricted as in C08
C08	partial	proved when the exponent does not contain v and the base is not zero; refuted otherwise (2^x)
C09	partial	Value preserved at the point of simplification and at every point where the operands that were 0 or 1 still are; termination proved; the result is irreducible and simplifying again changes nothing; the general claim is refuted (x*y simplified while x holds 0).
C10	proved	shared graphs with caches, both number types, all histories; exact arithmetic, no precision changes
C11	partial	proved when no sub-expression that homogenization changes is shared; refuted otherwise ((x+1)*(x+1) with x+1 shared)
C12	partial	Evaluation, degree bounds, homogenization, homogeneity test and derivative proved for every variable of the product; refuted for the homogenizing variable (x+2h: derivative 1, degree 0) and for derivatives stored by Differentiate(v) (always 0).
C13	partial	proved for every compilable system (registered variables, no function used before its turn, one compiler per system, derivatives not taken with Jacobian nodes), all points and histories; refuted outside these conditions by four witnesses
C14	partial	proved for all histories within one number type, and in both types unless the first evaluation since inputs were last set was in the other type; that case is refuted
C15	proved	all histories of adding, homogenizing, querying and copying structures; after ClearVariables the ordering is wrong (refuted by witnesses)
C16	partial	proved when the homogeneous groups have one size and, if not homogenized, the affine groups have one size; refuted otherwise (group counters are not advanced)
C17	proved	Over any field. Rescaling onto the patch, uniqueness, idempotence, invariance, exact failure condition.
C18	partial	Jacobian() is the derivative of Eval(), frames proved. In place with several groups the off-block entries keep previous content: refuted with a witness.
C19	partial	Invariant proved for all histories without copy construction; a copy-constructed patch is refuted with a witness.
C20	proved	Bijection for products below 2^64; the overflow case is refuted with a witness.
C21	proved	For plain targets over the complex numbers: zeros, distinct, complete, patched variant. Targets with ungrouped variables, unpatched homogenized targets and 64-bit overflow are refuted with witnesses.
C22	proved	Termination and exact enumeration of the backtracking search, for every degree matrix and group sizes; sum of products in 64-bit arithmetic.
C23	proved	Bijection for fewer than 2^31 start points; beyond that the int counter is refuted with a witness.
C24	proved	Times and step sizes in exact arithmetic; predictor, corrector and divergence test are arbitrary functions of the round. Fixed and adaptive precision trackers.
C25	proved	Uniform bound on the number of rounds. Settings outside the stated range refuted (failure factor 1; minimum step 0).
C26	partial	Fixed precision tracker never increases the step size (refuted). Adaptive precision: growth, shrinking and maximum proved with the exceptions the theorems list; unrestricted maximum and shrinking refuted.
C27	proved	Failure factor 0 shown to hang. Numerics arbitrary.
C28	partial	Cheapest among the candidates the code tests; bounds proved for rounded bounds, refuted in general; feasibility with respect to criterion B refuted (see C29).
C29	partial	Proved when the precision suffices (rounded down to a power of ten); refuted when it does not: unsigned wraparound makes the answer at least 1.
C30	proved	Linear solver, norm and precision criteria arbitrary. min_num_iterations = 0 shown never to succeed.
C47	partial	Concatenate fully, values of a+b and n*a and the second operand proved in every world reached by a careful history; that the first operand keeps its values is refuted (function objects are shared)
C48	partial	move assignment proved; copies, move construction and swaps proved for systems not differentiated since their last change; refuted after an evaluation
C49	partial	proved for all histories in which methods are chosen before differentiation; refuted otherwise by four witnesses
C50	partial	proved for all careful histories; refuted for +=, *=, reordering and changed function objects after an evaluation
C51	partial	Proved for affine groups, not homogenized. Refuted for homogenized targets and when an affine group precedes a homogeneous one.
C52	partial	For affine groups, not homogenized, first group of at least two variables: StartPoint(index) is computed by the model from the enumeration to the elimination, is a zero of the start system, and for coefficients in general position each zero is StartPoint(index) for exactly one index. The rest is refuted: a first group of one variable reads out of range, a homogenized target gives points without the homogenizing coordinates, projective groups give a system which is not square (patched) or coordinates which are all zero (not patched).
C53	partial	proved when no group follows an ungrouped variable; refuted otherwise
C54	proved	all trees, variables and points
C55	proved	the homotopy has the right values and derivatives; the target system itself is changed (refuted by a witness)
C31	partial	order proved for every selectable predictor and every right-hand side as a formal power series in the step; estimator order proved except for HeunEuler, where it is refuted; Heun and RKNorsett34 cannot be selected (refuted)
C32	partial	proved for degree at most 2 (1 with one sample); refuted for every cubic with two or more samples
C33	proved	every path polynomial in the c-th root, c, n, target; the degree bound is sharp
C34	partial	size check never throws, no undefined access, for every history; cycle number proved at most maximum+1, and the maximum itself is exceeded (refuted by a run)
C35	partial	Cauchy endgame: geometric and stops, every target and factor; power series endgame and initial samples proved for target 0 or factor 1/2, refuted otherwise (a run that never ends)
C37	partial	power series endgame proved; Cauchy endgame refuted: levels exchanged, undefined comparison over doubles at level 1
C36	partial	argmin of the candidates proved; max_cycle_number is not an upper bound (refuted: it is a lower bound, and a run reports more)
C56	partial	proved for degree at most 2 in the root; the exact error of cubics and a refutation on x = t^3 (Hermite defect, C32); not stated in general for degree 4 and more
C38	partial	first check exact; later checks after a failure always fail (refuted); relative distance asymmetric and blind at the origin (refuted)
C39	partial	all tracker runs of a Solve characterised; with distinct start points nothing is ever re-run (refuted)
C40	partial	first Solve proved in full; later calls keep stale endgame results (refuted)
C41	partial	first Solve proved in full; repeated calls accumulate (refuted)
C42	partial	registration proved for all histories; delivery proved for observers that do not change the list; self-removal during notification is undefined (refuted)
C43	partial	referenced objects are kept; the pool never shrinks and unreferenced objects may stay (refuted)
C44	partial	ordinary notation without a leading minus sign before several terms, and printing restricted to readable trees, proved; -x+y, -2^2 and several printed forms are read as other functions (refuted)
C45	partial	exact characterisation and declaration lists proved; names extending a declared name or a predefined symbol are rejected (refuted)
C46	proved	exact line by line result for every text
C57	partial	exact language proved; whole numbers with two minus signs are accepted and fractions are not (refuted)
C58	partial	all layouts proved; files with neither CONFIG nor END; come out doubled if the parser keeps characters of failed alternatives, and markers are found inside words (refuted)
C59	partial	14 structures, NewtonConfig and 3 choices; names are found inside longer names, the name of the path variable is preceded by skipped text, fractions are refused, an unknown type of precision can give the default silently (all refuted)
C62	proved	exact arithmetic; the least int overflows (refuted)
C63	proved	exact arithmetic; the test is not scale invariant and does not bound the condition number (refuted)
C60	partial	acceptance is proved for texts in which no name starts with an earlier name; recursive, missing and repeated definitions are accepted and the white space after a keyword is optional (refuted)
C64	proved	for start precision 16 or a multiple of ten from 20 on where precision changes are described; exact arithmetic
C61	partial	refuted: the sum of the exponents of two combined powers can overflow int; *= on a product also changes the functions built from it, leaves values computed before in place, and p *= p makes the tree infinite. Proved with the exponents bounded and the operand not built from the product.
C65	partial	units in multiple precision have the square root of the modulus drawn (refuted); the default precision is not restored when out_of_range is thrown (refuted); complex numbers and units of a given number of digits stay in the first quadrant
C66	partial	Evaluation, Jacobian, digits, orthogonal shape, points and consistency are proved in general. Refuted: the reported precision (coefficients keep the precision of generation after construction and after raising), the archive (constants, dimension and homogeneity are not written), making a homogeneous slice with assertions on, GetPoint at index = Degree. Not modelled: the QR factorisation itself, printing.
C67	partial	Proved when each sample has coordinates of one precision (and, with derivatives, when the times are at the default precision or some coordinate is not). Refuted otherwise: only the first coordinate of a sample is looked at, so a later one keeps its precision or loses digits; the version with derivatives does not look at the times. An empty sample throws.
C68	partial	No tracker emits TrackingStarted, so the recorders are never reset. Proved: what is recorded exactly, that the largest precision covers every change on the path, the time of a rise before the endgame, the accumulator. Refuted: the start precision is missed (0 recorded), an earlier path's precision, flag and time are put down to later paths, the flag of the first path is uninitialised memory, the start precision of the recorder is never written.
C69	partial	Proved for decimal literals whose exponent, if any, has no plus sign. Refuted for every number whose exponent is written with a plus sign (as Boost does for large numbers) and for nan and inf. Whole numbers with two minus signs are accepted. The value of a text, hardware doubles and the karma/qi number primitives are not modelled.
C70	partial	Order, conversion and range are proved. Restoring is refuted: one of the two saved lists is never read, so restoring fails, and points given in multiple precision are not among what is read. Multiprecision points keep the precision they were given with, not the default one.
C71	partial	Proved for function trees under the trackers' order of calls and for straight line programs when the number nodes are up to date. Refuted without a reset, when the default precision is not changed first, when a function was evaluated in between (its setter then does nothing), for straight line programs asked first, and for products of linears, whose coefficients never change and whose setter is undefined for multiprecision coefficients.
C72	partial	Ready for all histories of methods with a table; refuted for Heun and RKNorsett34, whose selection throws after the method and order were already replaced (the settings parser maps odepredictor 1, 3 and 4 to these). Return codes proved in full. Condition number: SetNormsCond takes the step counter by value, so it is re-estimated at every prediction or never, refuted against the documented frequency. Constant predictor: returns the point on success; refuted in general since it still factors the Jacobian.
C73	partial	Criteria, monotonicity and step size digits proved in full. Refuted: the required precision itself (the fraction is dropped while the criteria are strict, so a criterion that determines the precision is violated with it; one more digit suffices, proved); criterion C for systems without polynomials (Psi negative, NaN); epsilon, Phi and Psi unset in a default configuration and not affected by the user's coefficient and degree bounds; CoefficientBound below a coefficient. Exact real arithmetic with infinities and NaN instead of rounding.
C74	partial	One call of Solve: proved for the nonsingular solutions and the files. Refuted for repeated calls (multiplicities accumulate) and for all solutions when a path fails before the endgame (the empty end point makes DehomogenizePoint throw).
C75	partial	Proved for histories in which method and system are changed only of trackers without other copies, with methods that have a table and positive tolerances in Setup. Refuted in general: copies share predictor and corrector; Setup accepts thresholds that are not positive and changes the predictor before it throws for a bad tolerance; the digits of tolerances of 10 and more are undefined.
C76	partial	Proved for most settings. Refuted: the final tolerance and the thresholds for real and finite solutions are never used; the truncation threshold and the path variable name have no effect after construction unless tracker and systems are set up again, which resets the tracker's other settings; asking for the power series endgame makes a solver with the Cauchy endgame.
C77	partial	Proved for functions with positive integers as exponents whose negated parts and bases of powers mention one variable of a group or are products; acceptance and idempotence when they are products. Refuted in general: IsHomogeneous rejects the homogenization of -(x^2+x)+x^2 and homogenizing again makes it inhomogeneous; IsPolynomial ignores ungrouped variables; IsHomogeneous rejects homogeneous systems without homogenizing variables; MultiDegree of x/y is (1,1).
C78	partial	Proved for histories in which nothing is left between setting the evaluation method or copying, and adding to the system. Refuted in general: precision(p) without the default precision leaves a program of another precision and evaluation throws; a system sharing a variable is spoiled by precision changes of another; only first coordinate and first variable are compared when a program is used; SetEvalMethod on a system in use and copying leave it without program; PleaseAssumeUniformPrecision does nothing; a system without variables can not be evaluated.
C79	partial	Proved for every system none of whose nodes is a differential or a linear product: the loaded system is isomorphic to the one saved, sharing included, and evaluates alike. False in general: a loaded differential has lost its variable and evaluates to 0 for every variable; a loaded linear product has no variables; a loaded multihomogeneous start system has no start points; saving a pointer to a logarithm as the first node throws.
C80	partial	Proved in exact arithmetic. False in general: the precision of an empty matrix is documented to be the default but asking for it throws; a matrix stored by rows is written by columns and read back into its storage, so its entries are permuted.
C81	partial	Proved, with what predictor, corrector and step size control compute left arbitrary, except for the end time and two documented claims. False: the end time is cut to the precision of the start point and stays so when the precision rises (endtime_highest_precision_ is not); the solution is not returned at the initial precision when precision is preserved; converting to double leaves the precision of the time and delta_t; a request above 1000 digits fails an assertion; Refine at another precision on a tracker that has not tracked fails an assertion.
C82	partial	Evaluation through function trees at a given point is proved for all histories; the functions in multiple precision only if they were evaluated in double precision before, since otherwise a missing break runs an empty straight-line program, which is undefined (C82_mp_refuted). Eval() etc. are proved after SetAndReset. False: after Eval(x0,t0) and Jacobian(x1,t1), Eval() returns the functions at x0, t0 and the patch at x1; TimeDerivative and SetAndReset of a system without path variable throw after the variables were set; TimeDerivativeInPlace lets a vector pass which is too short for a patched system and writes after its end.
C83	partial	Proved for the estimates before the newest one: the newest is never compared (C83_newest_refuted). The ratio cutoff time is compared with the squared distance (C83_cutoff_refuted). The estimate is exact for samples whose times are multiplied by the sample factor, but the endgame multiplies them by one minus the factor, so it is exact only for factor 1/2 (C83_estimate_refuted), and it is not a number on a constant path (C83_constant_refuted). Exact arithmetic; the tracker is arbitrary.
C84	proved	types are elements of a type with decidable equality, rejection by the compiler is None
C85	partial	Adaptive precision: success is honest, precisions agree, failures are reported (proved for any behaviour of Newton's method). False: with fixed precision trackers success is always reported; both endgames ignore the code (a whole run of the Cauchy endgame in which no refinement succeeds); the second attempt starts where the first has failed since the sample was overwritten; the maximum precision is not respected and beyond 990 digits an assertion fails; the tracker can be left in a lower precision than the system.
C86	partial	Proved: it ends on every acyclic graph; values at all points with the same parameters are kept if the random numbers are not unlucky (what is 0 or 1 there is so everywhere); variables are restored; derivatives evaluate right next; functions do after a reset; SimplifyFunctions and the simplification of Jacobian nodes change nothing; no sum is left in a sum and no product in a product. False: implicit parameters and variables in no group are not randomised, so terms whose parameter happens to be 0 are lost for good; function nodes keep values computed at the random point.
C87	partial	Proved, the multiplicity as equality of ideals with (x^3, y - x^2). The crossing times hold for the homotopy to x^3-1, y^2-1 without gamma only; for the homotopy the solver makes they would need gamma r = 1 (refuted).
C88	partial	Degree and IsHomogeneous proved in full for one variable and for all; forms written as sums of products are recognised. The start system is proved for targets polynomial in every variable. Refuted with a parameter: Degree() counts parameters as variables, so x - p^2 gets degree 2, and x/p - 1, for which Degree() is -1, gets degree 2^64 - 1 after the conversion to size_t.
C89	partial	The theorems about the points hold for every target accepted whose functions have sums below a minus sign or a power in one variable only (predicate ready); acceptance is proved for functions without such sums. Refuted for others: of (x+y)^2 - 1, x - y the solver makes (x+y)^2 - h^4 and gets finite endpoints which are no solutions; for -(x^2+x)+x^2 it throws.
C90	partial	Proved for definitions which are not circular and not missing. Refuted otherwise: a function defined by itself, two functions defined by each other and a function without definition are accepted, and following the definitions never ends or meets a null pointer. f = 1; g = f; f = 2 makes g the value 2.
C91	partial	Proved if no value is empty and every line has a colon. Refuted otherwise: a setting without value swallows the next line, and a line without colon becomes part of the next name.
C92	partial	Proved for right hand sides in which a minus sign in front and powers apply to products of powers only, division is by integers and exponents are positive integers (predicate square_text). Refuted for f=(x+y)^2-1; g=x-y: the text is accepted, and the homotopy has a finite zero at t=0 which is no solution. For f=(x-1)^2-4 the set-up throws. The tracking of the paths is not part of this property.
C93	proved	Exact arithmetic; the linear solver's check of the decomposition is assumed to accept the matrices of the segment. Patches are not treated separately (a patch is one more linear function).
C94	proved	Exact arithmetic. Without the endgame: the tracker is run to the time 0, where the solver stops before and lets the endgame take over. That the homotopy determines the point at each time is a hypothesis on the random numbers, shown for three examples. Texts written with powers (x^1) are not treated.
C95	proved	Exact arithmetic and linear targets only; the solver's check of the decomposition is taken to accept every matrix. C95_a_direction_must_be_left_out shows that the exclusion is needed: x - 1 with gamma = -1 is singular on the way.
C96	partial	Unambiguity and places are proved in full, for paths of any outcome. Reading coordinates back needs exponents without a plus sign, as in C69. Paths which did not reach the endgame leave no trace in either file (C96_unstarted_missing_refuted). How the stream writes a single double or integer is left arbitrary.
C97	partial	Proved for the fixed precision tracker; those of the adaptive precision tracker are the subject of C98. A truncated path ends at a point that no successful step announced, with the time of the point before (C97_truncated_refuted), so agreement of the last point is proved for the other paths (C97_path_recorded_partial). While Initializing is told the tracker still answers with the state left by an earlier path. Observers do not change the tracker.
C98	partial	Order, truth and knowledge of the precision on one path are proved in full. From one path to the next the precision changes without an event (C98_between_paths_refuted). The last recorded point agrees with the tracker's for paths which are not truncated (C98_path_recorded_partial; see C97_truncated_refuted). Nothing is said about the path when the tracker hangs (C27). Observers do not change the tracker.
C99	proved	Fixed precision: PrecisionChanged, told by the refinement in adaptive precision, is not modelled, nor are the events of the Cauchy endgame. InEGOperatingZone is told at every turn of the loop, not once, and Initializing is never told. The first approximation is not told. Observers do not change the endgame.
