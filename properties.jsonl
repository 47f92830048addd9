{"id": "C01", "title": "A completed manual continuation step ends at the requested targets", "statement": "Whenever a manual step with at least two cases runs to normal completion, the constants of its last returned solution equal the requested targets on every continued constant and equal the starting constants on every other one; the values visited are the evenly spaced grid from start to target, in order, and their number is num_cases.", "quantifier": "every set of continued constants, every start/target, every num_cases >= 2, every solver behaviour that keeps the constants of the guess it is handed", "why_tests_cant": "The claim is over all solver outcomes and all grids; a test fixes one grid and one solver.", "anchors": ["beluga/continuation/continuation.py: ManualStrategy.init, ContinuationStrategy.next, run_continuation_set"]}
{"id": "C02", "title": "A step that returns normally has reached its targets, for every documented case count", "statement": "A manual, bisection or product-space step that returns normally has solved a case whose continued constants equal the targets, including when the number of cases is left at its default.", "quantifier": "every strategy, every case count including the constructor defaults (1)", "why_tests_cant": "Needs the boundary value of the case count for each strategy and every solver history.", "anchors": ["beluga/continuation/continuation.py: ManualStrategy.__init__, ManualStrategy.init, ProductStrategy.init, SparseProductStrategy.init"]}
{"id": "C03", "title": "Manual continuation never continues past a diverged case", "statement": "In a manual step, the first case that fails to converge is the last case handed to the solver: the run raises RuntimeError, also when that case is the last of the step; a normal return means every returned solution converged and exactly num_cases problems were solved.", "quantifier": "every solver outcome sequence, every case count", "why_tests_cant": "There are exponentially many outcome sequences.", "anchors": ["beluga/continuation/continuation.py: ContinuationStrategy.next lines 117-141, run_continuation_set lines 551-618"]}
{"id": "C04", "title": "Each case is warm-started from the nearest converged solution of the step", "statement": "From the second case of a step on, the trajectory handed to the solver as a guess is a copy of a converged solution of the same step whose constants are at minimal L1 distance from the new constants (the earliest such one on ties), with only the constants replaced.", "quantifier": "every history of converged and diverged cases, every strategy", "why_tests_cant": "Histories are unbounded; tests see one history.", "anchors": ["beluga/continuation/continuation.py: ContinuationStrategy.get_closest_gamma, gamma_norm, next"]}
{"id": "C05", "title": "Bisection keeps every originally scheduled case and ends converged at the targets", "statement": "When a bisection step returns normally, its last solution is converged and has the target constants, and the converged solutions visit, in order, every value of the original evenly spaced schedule; bisection only ever adds values between two neighbouring scheduled values.", "quantifier": "every solver outcome sequence under which the run returns, every number of divisions >= 1", "why_tests_cant": "Needs an invariant of the insert/backtrack loop over all outcome sequences.", "anchors": ["beluga/continuation/continuation.py: BisectionStrategy.next lines 243-289"]}
{"id": "C06", "title": "Bisection gives up after a bounded number of consecutive failures", "statement": "A bisection step never makes more than max_divisions+2 consecutive failing solver calls before raising RuntimeError, and a failure of the very first case raises at once; as long as fewer consecutive failures occur it does not give up.", "quantifier": "every solver outcome sequence, every max_divisions >= 0", "why_tests_cant": "A bound over all outcome sequences.", "anchors": ["beluga/continuation/continuation.py: BisectionStrategy.next lines 250-289"]}
{"id": "C07", "title": "A bisection step always finishes", "statement": "For every solver, a bisection step stops after finitely many solver calls, either with a result or with an exception; max_divisions bounds the total refinement.", "quantifier": "every infinite solver outcome sequence", "why_tests_cant": "Non-termination cannot be observed by a finite test.", "anchors": ["beluga/continuation/continuation.py: BisectionStrategy.next, run_continuation_set"]}
{"id": "C08", "title": "Re-running a continuation strategy behaves like a fresh one", "statement": "Running the same strategy object a second time (reset, init and iterate, as every call of solve does) visits the same cases as a newly built strategy with the same settings.", "quantifier": "every strategy, every first run history, every second starting point", "why_tests_cant": "Depends on everything the first run left behind.", "anchors": ["beluga/continuation/continuation.py: reset, init of ManualStrategy, BisectionStrategy, ProductStrategy, SparseProductStrategy"]}
{"id": "C09", "title": "Product-space continuation visits every grid point exactly once, ending at the targets", "statement": "With n subdivisions per constant and v constants a fresh product-space step schedules exactly n^v cases; the cases are exactly the points of the cartesian grid, each once, the first being the start and (n >= 2) the last being all targets at once.", "quantifier": "every v, every n, every start and target", "why_tests_cant": "Unbounded number of variables and subdivisions.", "anchors": ["beluga/continuation/continuation.py: ProductStrategy.init lines 341-356"]}
{"id": "C10", "title": "Sparse product continuation changes one constant at a time along already visited lines", "statement": "In a fresh sparse-product step every scheduled case after the first differs from an earlier scheduled case in exactly one constant, every point of the major grid is visited, and the number of cases is 1 + sum over n of (prod_{k<n} M_k)(M_n - 1)(m_n + 1).", "quantifier": "every number of constants, all major/minor step counts", "why_tests_cant": "Unbounded grids.", "anchors": ["beluga/continuation/continuation.py: SparseProductStrategy.init lines 430-477"]}
{"id": "C11", "title": "Continuation steps are chained and results grouped per step", "statement": "The result has one list per continuation step; step k+1 starts from the last solution of step k (from the initial guess for k=0) and each list holds exactly the solutions the solver returned during that step, in call order.", "quantifier": "every list of steps, every solver behaviour", "why_tests_cant": "Unbounded number of steps and cases.", "anchors": ["beluga/continuation/continuation.py: run_continuation_set"]}
{"id": "C12", "title": "A product-space step that returns normally produced a converged solution for every grid point", "statement": "When a product-space or sparse-product step returns without raising, every scheduled case, in particular the one at the targets, has a converged solution.", "quantifier": "every solver outcome sequence", "why_tests_cant": "Quantifies over all failure patterns.", "anchors": ["beluga/continuation/continuation.py: ProductStrategy.next lines 317-327, SparseProductStrategy.next lines 406-416"]}
{"id": "C13", "title": "add_step accepts exactly the known strategy names", "statement": "add_step with one of the names manual, bisection, productspace, sparse_product appends one new strategy and returns it; any other string raises ValueError and leaves the list unchanged; over any sequence of calls the list is exactly the successfully added strategies in call order.", "quantifier": "every sequence of add_step calls", "why_tests_cant": "All strings and all call sequences.", "anchors": ["beluga/continuation/continuation.py: ContinuationList.add_step"]}
{"id": "C14", "title": "Moving time into the state and back is the identity", "statement": "Mapping a trajectory through the momentum-shift mapper and back returns the same time vector, states, costates and time costate, whatever the position of the new column; mapping back always reads the time from that state column.", "quantifier": "every trajectory size, every column index, default index included", "why_tests_cant": "All shapes and indices.", "anchors": ["beluga/numeric/data_classes/trajectory_mappers.py: MomentumShiftMapper"]}
{"id": "C15", "title": "The EpsTrig trajectory map is undone by its inverse", "statement": "For every control history within its bounds, mapping to the trigonometric control and back returns the original control; the recovered control always lies within the bounds.", "quantifier": "every bounds lower < upper and every control value in between", "why_tests_cant": "Real-valued identity over an interval.", "anchors": ["beluga/numeric/data_classes/trajectory_mappers.py: EpsTrigMapper", "beluga/symbolic/data_classes/mapping_functions.py: EpsTrig"]}
{"id": "C16", "title": "Time normalisation maps to [0,1] and back without loss", "statement": "Normalising a trajectory maps its time vector affinely onto [0,1] preserving order, stores the duration as a new parameter, does not modify the trajectory it is given, and the inverse returns the original time vector and parameters.", "quantifier": "every non-degenerate time vector", "why_tests_cant": "All real time vectors.", "anchors": ["beluga/numeric/data_classes/trajectory_mappers.py: NormalizeTimeMapper"]}
{"id": "C17", "title": "Turning controls into states and back is the identity", "statement": "Mapping a trajectory through the differential-control mapper appends every control history to the states at the given columns and the inverse restores states and controls exactly, in their original order.", "quantifier": "every number of states, controls, points and every admissible set of column indices in any order", "why_tests_cant": "All shapes and index permutations.", "anchors": ["beluga/numeric/data_classes/trajectory_mappers.py: DifferentialControlMapper"]}
{"id": "C18", "title": "The geometric control mapper is undone by its inverse", "statement": "For every trajectory accepted by the geometric differential-control mapper the inverse restores states, controls and costates, and every number of controls is accepted.", "quantifier": "every number of states and controls, every costate history", "why_tests_cant": "All shapes.", "anchors": ["beluga/numeric/data_classes/trajectory_mappers.py: DifferentialControlMapperDiffyG"]}
{"id": "C19", "title": "Squashing costates into the state vector and back is the identity", "statement": "Mapping a trajectory through the BVP-squash mapper and back restores states and costates for every number of states and costates and removes exactly the adjoint parameters that were added.", "quantifier": "every trajectory size", "why_tests_cant": "All shapes.", "anchors": ["beluga/numeric/data_classes/trajectory_mappers.py: SquashToBVPMapper", "beluga/symbolic/data_classes/mapping_functions.py: SquashToBVP lines 661-683"]}
{"id": "C20", "title": "The full solution map is invertible", "statement": "For every trajectory of a problem with any number of states, controls, costates and parameters, mapping it to the BVP with the chain built for the traditional method with differential or algebraic control and mapping it back returns the same time, states, costates, constants and parameters (and, for differential control, the same controls); constraint multipliers are dropped.", "quantifier": "every trajectory with at least two distinct end times, every dimension", "why_tests_cant": "All shapes and values; tests use one trajectory whose costates are constant.", "anchors": ["beluga/symbolic/data_classes/symbolic_problem.py: Problem.map_sol, inv_map_sol", "beluga/numeric/data_classes/trajectory_mappers.py"]}
{"id": "C21", "title": "Mapping a solution back does not disturb the solution handed in", "statement": "inv_map_sol leaves its argument unchanged, so that it can be applied again to the same trajectory with the same result.", "quantifier": "every trajectory, every mapper chain", "why_tests_cant": "Aliasing over all chains.", "anchors": ["beluga/symbolic/data_classes/symbolic_problem.py: map_sol", "beluga/numeric/data_classes/trajectory_mappers.py: SquashToBVPMapper.inv_map"]}
{"id": "C22", "title": "The applied control minimises the Hamiltonian among the candidate control laws", "statement": "At every point the control chosen from the list of candidate control laws has Hamiltonian no larger than any other candidate and is the first such candidate, both in the compiled control function and in the trajectory mapper.", "quantifier": "every list of candidates, every Hamiltonian values", "why_tests_cant": "All candidate lists and values.", "anchors": ["beluga/numeric/data_classes/trajectory_mappers.py: AlgebraicControlMapper.inv_map", "beluga/numeric/compilation/component_compilation.py: compile_control"]}
{"id": "C23", "title": "Scaling and unscaling a solution is the identity", "statement": "Unscaling a scaled solution with the same scale factors returns the original values; with automatically computed factors this holds for every solution.", "quantifier": "every solution and all scale factors", "why_tests_cant": "Real-valued identity with a singular case.", "anchors": ["beluga/numeric/data_classes/NumericProblem.py: compile_scaling lines 366-422", "beluga/utils/helper_functions.py: max_mag"]}
{"id": "C24", "title": "Problem transformations compose like functions", "statement": "(f*g)(p) = f(g(p)), f>>g applies f first, f**n applies f exactly n times, composition is associative with the identity functor as unit, building compositions changes none of the operands, and negative powers raise ValueError.", "quantifier": "every expression built from functors with *, >>, <<, **", "why_tests_cant": "All compositions.", "anchors": ["beluga/symbolic/data_classes/mapping_functions.py: GenericFunctor lines 26-107"]}
{"id": "C25", "title": "Every declared inequality constraint is enforced or rejected", "statement": "After the constraint stage of the indirect or direct pipeline has run without error, every constraint the user declared with bounds has been turned into a penalty or a bounded control; none is silently dropped.", "quantifier": "every combination of initial, path and terminal constraints, bounds and methods", "why_tests_cant": "All constraint sets.", "anchors": ["beluga/symbolic/data_classes/mapping_functions.py: EpsTrig, UTM, Dualize, make_indirect_method, make_direct_method"]}
{"id": "C26", "title": "Two-sided constraints are all eliminated and other constraints kept in order", "statement": "Running the constraint stage built for a problem leaves no two-sided constraint that was present, keeps the one-sided and equality constraints in their original order, and records one solution mapper per eliminated constraint.", "quantifier": "every constraint set on which the stage succeeds", "why_tests_cant": "All constraint sets.", "anchors": ["beluga/symbolic/data_classes/mapping_functions.py: make_indirect_method lines 856-938, UTM.transformation, EpsTrig.transformation"]}
{"id": "C27", "title": "The UTM penalty is a barrier", "statement": "For lower < upper and a positive activator the penalty added to the cost is zero exactly at the middle of the interval, positive elsewhere inside, symmetric, strictly increasing with the distance from the middle, and grows beyond every bound when either limit is approached.", "quantifier": "every real value strictly inside the interval", "why_tests_cant": "Real-valued statement.", "anchors": ["beluga/symbolic/data_classes/mapping_functions.py: UTM.utm lines 228-288"]}
{"id": "C28", "title": "The EpsTrig substitution covers exactly the admissible controls", "statement": "The physical control produced from the trigonometric control lies in [lower, upper] for every real value and every admissible control is produced by some value.", "quantifier": "every bounds lower <= upper, every real value", "why_tests_cant": "Real-valued statement.", "anchors": ["beluga/symbolic/data_classes/mapping_functions.py: EpsTrig.transformation lines 186-225"]}
{"id": "C29", "title": "A relaxed switch selects the function whose conditions hold", "statement": "As the switch tolerance goes to zero, the weight of each alternative tends to one where all its conditions are negative and to zero where some condition is positive; the weight stays between 0 and 1.", "quantifier": "every list of alternatives and conditions", "why_tests_cant": "A limit statement over all condition lists.", "anchors": ["beluga/symbolic/data_classes/components_structures.py: SwitchStruct.make_rashs lines 260-288", "beluga/symbolic/data_classes/mapping_functions.py: RASHS"]}
{"id": "C30", "title": "User quantities are eliminated without changing the problem", "statement": "After the quantities are applied, no quantity name occurs in the dynamics, cost or constraints, whatever the order in which mutually dependent (acyclic) quantities were declared, and every expression has the same value as before for every assignment of the remaining symbols.", "quantifier": "every acyclic set of quantities in every order, every expression", "why_tests_cant": "All dependency graphs and orders.", "anchors": ["beluga/symbolic/data_classes/mapping_functions.py: ApplyQuantities lines 121-139", "beluga/symbolic/data_classes/symbolic_problem.py: subs_all"]}
{"id": "C31", "title": "The derived dynamics are Hamiltonian", "statement": "Along every trajectory of the state and costate equations produced for a problem, the Hamiltonian changes only through the controls and explicit time dependence: if it is stationary in the controls and time does not appear explicitly it is constant.", "quantifier": "every problem (any number of states, any right-hand sides), every trajectory", "why_tests_cant": "Universally quantified over problems and trajectories.", "anchors": ["beluga/symbolic/data_classes/mapping_functions.py: Dualize lines 304-395"]}
{"id": "C32", "title": "The boundary-value problem is square", "statement": "The problem produced by the indirect pipeline has exactly as many boundary conditions as unknowns (initial values of the differential variables and quadratures plus parameters and constraint multipliers), for every control method and option.", "quantifier": "every number of states, controls, parameters, constraints; every pipeline option", "why_tests_cant": "All dimensions and options.", "anchors": ["beluga/symbolic/data_classes/mapping_functions.py: Dualize, DifferentialControlLaw, MishchenkoFomenko, NormalizeTime, SquashToBVP, make_indirect_method"]}
{"id": "C33", "title": "The traditional and the geometric method produce the same costate equations", "statement": "For every problem the costate equations derived by the geometric (diffyg) method equal those of the traditional method.", "quantifier": "every problem, with and without parameters", "why_tests_cant": "All problems.", "anchors": ["beluga/symbolic/data_classes/mapping_functions.py: Dualize.transformation method diffyg", "beluga/symbolic/differential_geometry/differential_geometry.py: make_hamiltonian_vector_field"]}
{"id": "C34", "title": "Differential control keeps the stationarity condition satisfied", "statement": "Along every trajectory of the dynamics produced by the differential control law, the stationarity residuals dH/du keep their value; so imposing them at the final time makes them hold everywhere.", "quantifier": "every problem, every trajectory", "why_tests_cant": "Universally quantified over problems and trajectories.", "anchors": ["beluga/symbolic/data_classes/mapping_functions.py: DifferentialControlLaw lines 420-503"]}
{"id": "C35", "title": "Time normalisation of the problem preserves its solutions", "statement": "A curve solves the time-normalised problem exactly when its rescaling solves the original one, for the states, costates and all quadratures, with the same accumulated path cost.", "quantifier": "every problem and every curve", "why_tests_cant": "Universally quantified.", "anchors": ["beluga/symbolic/data_classes/mapping_functions.py: NormalizeTime lines 686-720"]}
{"id": "C36", "title": "The symplectic test accepts exactly symplectic forms", "statement": "The standard form of every dimension is accepted; a matrix that is not square, of odd size, not antisymmetric or degenerate is rejected.", "quantifier": "every matrix", "why_tests_cant": "All dimensions and matrices.", "anchors": ["beluga/symbolic/differential_geometry/differential_geometry.py: make_standard_symplectic_form, is_symplectic"]}
{"id": "C37", "title": "The exterior derivative is antisymmetric and squares to zero", "statement": "For every 1-form the derivative at (i,j) is d_i f_j - d_j f_i, hence antisymmetric, and the exterior derivative of the exterior derivative of every function is zero.", "quantifier": "every dimension and every expression", "why_tests_cant": "All dimensions and functions.", "anchors": ["beluga/symbolic/differential_geometry/differential_geometry.py: exterior_derivative lines 11-50"]}
{"id": "C38", "title": "Declared names are unique", "statement": "Over any sequence of declaration calls on a problem no two declared entities share a name, and a rejected declaration leaves the problem as it was.", "quantifier": "every sequence of API calls", "why_tests_cant": "All call histories.", "anchors": ["beluga/symbolic/data_classes/symbolic_problem.py: input functions lines 88-209, check_for_duplicate"]}
{"id": "C39", "title": "Processing a copy of a problem leaves the original alone", "statement": "After a deep copy of a problem has been processed (as solve does), the original accepts and rejects exactly the same further declarations as before.", "quantifier": "every problem, every processing history of the copy", "why_tests_cant": "All histories; aliasing.", "anchors": ["beluga/symbolic/data_classes/symbolic_problem.py", "beluga/numeric/compilation/LocalCompiler.py: LocalCompiler.__deepcopy__", "beluga/beluga.py: solve"]}
{"id": "C40", "title": "Cost unit inconsistencies are reported every time", "statement": "A problem whose path-cost unit times the independent-variable unit differs from the boundary-cost unit is rejected each time it is checked, and a consistent problem is accepted.", "quantifier": "every unit combination, every number of checks", "why_tests_cant": "All unit combinations and call histories.", "anchors": ["beluga/symbolic/data_classes/components_structures.py: CostStruct.check_path_units lines 181-196", "beluga/symbolic/data_classes/symbolic_problem.py: check_sufficient_problem"]}
{"id": "C41", "title": "recursive_sub reports success exactly when substitution is finished", "statement": "recursive_sub stops after at most len+1 passes; it reports success exactly when the returned expression no longer changes under the substitution, and on every acyclic replacement it succeeds with no replaced symbol left and the value unchanged.", "quantifier": "every expression and every replacement map", "why_tests_cant": "All dependency graphs.", "anchors": ["beluga/utils/helper_functions.py: recursive_sub"]}
{"id": "C42", "title": "Shooting packs and unpacks its unknowns without loss", "statement": "Unpacking the packed vector of a multiple-shooting guess returns the initial states of every arc, the quadratures of the first arc and both parameter vectors; packing what was unpacked from any vector of the right size gives the vector back.", "quantifier": "every number of arcs and every dimension", "why_tests_cant": "All sizes.", "anchors": ["beluga/numeric/bvp_solvers/Shooting.py: _wrap_y0, _unwrap_y0 lines 205-238"]}
{"id": "C43", "title": "The multiple-shooting residual vanishes exactly at solutions", "statement": "The residual of a set of arcs is zero exactly when consecutive arcs join in their states and the boundary conditions hold at the outer ends, and its length is (arcs-1)*states plus the number of boundary conditions.", "quantifier": "every number of arcs, every boundary function", "why_tests_cant": "All sizes and functions.", "anchors": ["beluga/numeric/bvp_solvers/Shooting.py: _bc_func_multiple_shooting lines 371-387"]}
{"id": "C44", "title": "Armijo shooting reports convergence only for small residuals and always stops", "statement": "Whatever the residual function and linear solver do, the Armijo loop ends after at most max_iterations+1 steps with at most 5 trial evaluations each; it reports convergence only if the norm of the residual at the returned unknowns is at most the tolerance.", "quantifier": "every residual function, including ones producing infinities and NaN", "why_tests_cant": "All functions and iteration histories.", "anchors": ["beluga/numeric/bvp_solvers/Shooting.py: solve lines 703-746"]}
{"id": "C45", "title": "A solution flagged as converged satisfies the boundary conditions to the tolerance", "statement": "For every choice of algorithm accepted by the shooting solver, a returned trajectory flagged converged has residual norm at most the tolerance at the returned unknowns.", "quantifier": "every algorithm, every external solver behaviour allowed by its contract", "why_tests_cant": "All external solver outcomes.", "anchors": ["beluga/numeric/bvp_solvers/Shooting.py: solve lines 675-701"]}
{"id": "C46", "title": "The status message agrees with the convergence flag", "statement": "The shooting solver reports a \"Converged\" message exactly when it flags the solution as converged.", "quantifier": "every final residual, iteration count, tolerance", "why_tests_cant": "Boundary values.", "anchors": ["beluga/numeric/bvp_solvers/Shooting.py: solve lines 764-774"]}
{"id": "C47", "title": "Arcs tile the time interval and are stitched without gaps or duplicates", "statement": "The arcs cover [t0,tf] contiguously; the stitched trajectory contains every point of every arc exactly once, in increasing time, starting at t0 and ending at tf.", "quantifier": "every number of arcs, every propagated arc lengths", "why_tests_cant": "All sizes.", "anchors": ["beluga/numeric/bvp_solvers/Shooting.py: solve lines 483-495, 776-791"]}
{"id": "C48", "title": "Quadratures are continuous across shooting arcs", "statement": "After the arcs are propagated the quadrature of each arc starts where the previous arc ended, for any number of arcs, and increments inside each arc are unchanged.", "quantifier": "every number of arcs and all quadrature values", "why_tests_cant": "Induction over the number of arcs.", "anchors": ["beluga/numeric/bvp_solvers/Shooting.py: _make_gammas lines 240-269"]}
{"id": "C49", "title": "Running with several processes gives the same arcs as running with one", "statement": "The arcs propagated through a process pool equal the arcs propagated serially.", "quantifier": "every guess, every derivative function", "why_tests_cant": "Needs the calling convention for all inputs.", "anchors": ["beluga/numeric/bvp_solvers/Shooting.py: _make_gammas, _make_gammas_parallel lines 240-300"]}
{"id": "C50", "title": "A solver never uses functions from a previous problem", "statement": "After any sequence of set_* calls and solves, the wrapped boundary function and state-transition function used by the next solve are built from the functions set last.", "quantifier": "every call sequence", "why_tests_cant": "All call histories.", "anchors": ["beluga/numeric/bvp_solvers/BaseAlgorithm.py: setters", "beluga/numeric/bvp_solvers/Shooting.py: __init__, solve lines 475-481"]}
{"id": "C51", "title": "Fixed-step propagation covers the interval", "statement": "With a fixed step the propagator visits an increasing grid that starts at the initial time, ends exactly at the final time and has no gap larger than the step, for forward and reverse propagation.", "quantifier": "every interval and step", "why_tests_cant": "Real-valued; all intervals.", "anchors": ["beluga/numeric/ivp_solvers/ivpsol.py: Propagator.__call__ lines 67-104"]}
{"id": "C52", "title": "Quadrature integration uses exactly the points of the requested interval", "statement": "The integration nodes start at the lower limit, end at the upper limit, increase, and contain exactly the trajectory points strictly in between.", "quantifier": "every trajectory, every sub-interval including limits on or between points", "why_tests_cant": "All positions of the limits.", "anchors": ["beluga/numeric/ivp_solvers/ivpsol.py: integrate_quads lines 141-192"]}
{"id": "C53", "title": "Generated finite differences are exact on polynomials", "statement": "For every set of distinct grid points the generated weights differentiate every polynomial of degree below the number of points exactly, for every derivative order below the number of points; larger orders are rejected.", "quantifier": "every grid, order and polynomial", "why_tests_cant": "Infinitely many grids and polynomials.", "anchors": ["beluga/numeric/numerical_derivatives/finite_diff.py: gen_fin_diff_coeff lines 105-129, gen_fin_diff"]}
{"id": "C54", "title": "Table splines interpolate and are twice continuously differentiable", "statement": "The 1-D table spline returns the tabulated value at every abscissa of the table, its three derivative functions are the derivatives of the interpolant, it is C2 across interior knots with natural ends.", "quantifier": "every table with increasing abscissas, every point of the table range", "why_tests_cant": "Real-valued; all tables.", "anchors": ["beluga/symbolic/special_functions/tables.py: TableSpline1D lines 72-147"]}
{"id": "C55", "title": "Different derivatives of a custom function get different names", "statement": "Two different derivatives of the same user function never share a generated name, so evaluating one never calls the other.", "quantifier": "every function arity, argument list and derivative order", "why_tests_cant": "All argument lists.", "anchors": ["beluga/symbolic/special_functions/custom_functions.py: construct_name, CustomFunction, fdiff"]}
{"id": "C56", "title": "Guess generator settings take effect", "statement": "The settings given when a guess generator is created or set up are the ones used to generate the guess: mode, direction, integration time, parameter guess; invalid settings are rejected.", "quantifier": "every combination of settings and call sequences", "why_tests_cant": "All settings and histories.", "anchors": ["beluga/continuation/guess_generators.py: GuessGenerator, guess_generator"]}
{"id": "C57", "title": "Boundary constants are matched to the trajectory ends", "statement": "match_constants_to_states sets exactly the constants named <state>_0 and <state>_f (also for the independent variable) to the first and last value of that state and changes no other constant.", "quantifier": "every name list, every trajectory", "why_tests_cant": "All name lists.", "anchors": ["beluga/continuation/guess_generators.py: match_constants_to_states lines 229-249"]}
{"id": "C58", "title": "The boundary function and its Jacobian use the same block layout", "statement": "Row k of the compiled boundary-condition Jacobian is the derivative of entry k of the compiled boundary function with respect to initial values, final values and parameters, for every split into initial and terminal conditions.", "quantifier": "every number of conditions, states, parameters", "why_tests_cant": "All sizes.", "anchors": ["beluga/numeric/data_classes/NumericProblem.py: compile_bc lines 156-230, compile_bc_jac_func lines 272-333"]}
{"id": "C59", "title": "save then load returns what was saved; a crash never destroys earlier results", "statement": "load returns exactly the non-None values given to the last completed save, and a crash during save leaves either the old or the new file contents.", "quantifier": "every combination of arguments, every crash point", "why_tests_cant": "All crash points.", "anchors": ["beluga/utils/storage.py: save, load"]}
{"id": "C60", "title": "The process pool is released on every path", "statement": "Every exit of solve, normal or exceptional, closes the process pool it created, and invalid inputs are rejected before resources are acquired.", "quantifier": "every exception point", "why_tests_cant": "All failure points.", "anchors": ["beluga/beluga.py: solve lines 90-202"]}
{"id": "C61", "title": "A step whose cases all converge runs to completion with one solve per case", "statement": "If the solver converges on every problem and every continued constant exists, a manual or bisection step returns normally after exactly num_cases solver calls, all converged: no exception, no extra and no missing case.", "quantifier": "every number type, every case count >= 0, both spacings, every start and target", "why_tests_cant": "All sizes and all solvers.", "anchors": ["beluga/continuation/continuation.py: ManualStrategy, BisectionStrategy, run_continuation_set lines 554-616"]}
{"id": "C62", "title": "The reduction mapper is undone by its inverse", "statement": "Removing a conserved quantity and its symmetry variable from a trajectory and mapping it back restores every field of the trajectory, whenever the quantity is constant along the trajectory and the compiled inverse formulas solve the compiled forward formulas.", "quantifier": "every trajectory size, every pair of positions, every arithmetic", "why_tests_cant": "All shapes, index pairs and formulas.", "anchors": ["beluga/numeric/data_classes/trajectory_mappers.py: MF lines 283-346", "beluga/symbolic/data_classes/mapping_functions.py: MishchenkoFomenko"]}
{"id": "C63", "title": "Continuation settings take effect", "statement": "The end value used for a continued constant is the one given in the last const() call for it, the constants are stepped in the order in which they were first named, a change of num_cases is refused while a step is running and accepted again after a reset.", "quantifier": "every sequence of const and num_cases calls, every number type", "why_tests_cant": "All call sequences.", "anchors": ["beluga/continuation/continuation.py: ManualStrategy.const, num_cases"]}
{"id": "C65", "title": "Solutions of the derived problem are stationary points of the cost", "statement": "A curve that satisfies the derived costate equations, the stationarity conditions and all derived boundary conditions makes the first variation of the cost vanish, for every variation of states, parameters, controls and final time compatible with the linearised dynamics and boundary constraints.", "quantifier": "every problem (any number of states, parameters, controls, constraints), every solution, every admissible variation", "why_tests_cant": "A statement about all problems and all variations, over the reals.", "anchors": ["beluga/symbolic/data_classes/mapping_functions.py: Dualize lines 304-395"]}
{"id": "C66", "title": "Making time a state keeps the trajectories and makes the Hamiltonian constant", "statement": "MomentumShift neither adds nor loses trajectories and leaves cost and constraints alone; the Hamiltonian of the shifted problem is the original one plus the costate of time and is constant along every solution of the derived equations, even when the problem depends on time; controls governed by the differential law then stay stationary.", "quantifier": "every problem, every solution curve", "why_tests_cant": "Quantifies over problems and over curves.", "anchors": ["beluga/symbolic/data_classes/mapping_functions.py: MomentumShift lines 142-183"]}
{"id": "C67", "title": "The algebraic control law uses stationary controls with the least Hamiltonian", "statement": "The control computed at a point of the trajectory makes the derivative of the Hamiltonian with respect to every control vanish, no candidate has a smaller Hamiltonian, and if the symbolic solver found all solutions it has the least Hamiltonian of all stationary controls.", "quantifier": "every problem, every point, every symbolic solver whose solutions solve its equations", "why_tests_cant": "Quantifies over problems, points and solvers.", "anchors": ["beluga/symbolic/data_classes/mapping_functions.py: AlgebraicControlLaw lines 398-417", "beluga/numeric/compilation/component_compilation.py: compile_control"]}
{"id": "C64", "title": "Evaluating a trajectory returns what is stored", "statement": "Evaluating a trajectory at a stored time returns exactly the stored row, between neighbouring stored times the point on the straight segment, and outside the stored times an error.", "quantifier": "every trajectory with distinct times, in any order; every time", "why_tests_cant": "All trajectories and times.", "anchors": ["beluga/numeric/data_classes/Trajectory.py: Trajectory.__call__ lines 64-156"]}
{"id": "C68", "title": "Propagated quadratures start at the given value and accumulate", "statement": "After propagation there is one quadrature row per time, the first one is the given start, and row i is the start plus the integral over the first i+1 points; the quick reconstruction gives the same.", "quantifier": "every trajectory, quadrature function and integration rule", "why_tests_cant": "All trajectories and functions.", "anchors": ["beluga/numeric/ivp_solvers/ivpsol.py: Propagator.__call__ lines 97-102, reconstruct lines 107-138, integrate_quads lines 141-192"]}
{"id": "C69", "title": "Complex-step derivatives are accurate to second order in the step and work for every number of arguments", "statement": "For a real polynomial the first-order complex-step formula is exact up to degree two and its error is at most a constant times the square of the step; the second-order formula has the same accuracy; a function of several arguments can be differentiated with respect to any one of them.", "quantifier": "every polynomial, point, step and number of arguments", "why_tests_cant": "The step used in the code makes the error invisible in doubles for the first-order formula; for the others a test compares with one tolerance at one point.", "anchors": ["beluga/numeric/numerical_derivatives/complex_step.py: gen_csd lines 10-119"]}
{"id": "C70", "title": "The derivative function and its analytical Jacobian belong together", "statement": "Entry (i, j) of the compiled derivative Jacobian is the derivative of entry i of the compiled derivative function with respect to state j (and to parameter j in the second block), with and without a control law.", "quantifier": "every problem, point and parameter values", "why_tests_cant": "A solver with a wrong Jacobian often still converges, slowly or to fewer digits; a test at one point of one problem does not see a missing chain-rule term.", "anchors": ["beluga/symbolic/data_classes/mapping_functions.py: ComputeAnalyticalJacobians lines 732-758", "beluga/symbolic/data_classes/mapping_functions.py: make_indirect_method lines 856-930", "beluga/numeric/data_classes/NumericProblem.py: compile_deriv_func lines 117-154, compile_deriv_jac_func lines 232-270"]}
{"id": "C71", "title": "The collocation solver receives Jacobians of the functions it receives", "statement": "The Jacobians handed to solve_bvp are the derivatives of the right-hand side and of the boundary function handed to it, for the packed vector of states and quadratures and the packed vector of dynamical and other parameters.", "quantifier": "every problem with any number of states, quadratures and parameters of both kinds", "why_tests_cant": "All block sizes.", "anchors": ["beluga/numeric/bvp_solvers/SPBVP.py: solve lines 44-102"]}
{"id": "C72", "title": "Method names are recognised regardless of letter case", "statement": "Every spelling of a documented method name selects that method, the spelling makes no difference to the transformed problem, and any other name is rejected before a transformation is built.", "quantifier": "every method name and every problem", "why_tests_cant": "All spellings and problems.", "anchors": ["beluga/beluga.py: solve lines 131-147", "beluga/symbolic/data_classes/mapping_functions.py: make_indirect_method lines 856-938, Dualize line 354, DifferentialControlLaw line 451"]}
{"id": "C73", "title": "A finished computation is returned to the caller", "statement": "Once the continuation and the post-processing have finished, solve returns their result, whatever happens while the result is stored.", "quantifier": "every input, every failing call", "why_tests_cant": "Every failure point of the storage.", "anchors": ["beluga/beluga.py: solve lines 161-202"]}
{"id": "C74", "title": "Scaling does not change the boundary value problem", "statement": "Dividing time, states, quadratures, controls, parameters and constants by the scale factors of their units turns the values of the compiled control law, derivative, quadrature, cost and boundary functions into the values divided by the factors of their units; so a trajectory solves the problem exactly when the scaled trajectory solves the same compiled problem at the scaled constants.", "quantifier": "every dimensionally consistent problem, every positive choice of unit factors, every trajectory", "why_tests_cant": "Scale factors change with every continuation step, and the solver only ever sees scaled values; a test compares one problem at one scale.", "anchors": ["beluga/numeric/data_classes/NumericProblem.py: compile_scaling lines 366-422", "beluga/numeric/compilation/component_compilation.py: compile_control lines 8-37", "beluga/continuation/continuation.py: run_continuation_set lines 532-590"]}
{"id": "C75", "title": "The transformations keep problems dimensionally consistent", "statement": "If the equations, conditions and costs of a problem are dimensionally consistent with the declared units, then so is every problem the direct and indirect methods derive from it, with the units the transformations give to the costates, adjoined parameters, new states and boundary conditions.", "quantifier": "every problem, every sequence of transformations that make_direct_method and make_indirect_method build", "why_tests_cant": "A wrong unit is only seen as bad scaling on problems with large scale differences.", "anchors": ["beluga/symbolic/data_classes/mapping_functions.py: MomentumShift lines 142-183, EpsTrig lines 186-225, UTM lines 228-288, Dualize lines 304-395, DifferentialControlLaw lines 420-503, SquashToBVP lines 661-683, NormalizeTime lines 686-720, make_direct_method lines 799-853, make_indirect_method lines 856-938"]}
{"id": "C76", "title": "The derived boundary value problem can be solved in scaled variables", "statement": "For a dimensionally consistent optimal control problem, the trajectories of the boundary value problem that the indirect method derives are, after scaling, exactly the trajectories of the same compiled problem at the scaled constants; and the factors computed from declared units are positive.", "quantifier": "every consistent problem, method, option, reference values and trajectory", "why_tests_cant": "All problems and reference values.", "anchors": ["beluga/symbolic/data_classes/mapping_functions.py: make_indirect_method lines 856-938", "beluga/numeric/data_classes/NumericProblem.py: compile_scaling lines 366-422"]}
{"id": "C77", "title": "Every declared symmetry gives a conserved quantity", "statement": "With the geometric method, the expression recorded for a declared symmetry field X is the sum of the costates times the components of X, and it is constant along every trajectory of the canonical equations whenever the Hamiltonian is invariant under X.", "quantifier": "every problem, symmetry field, trajectory", "why_tests_cant": "Conservation is a statement about all trajectories of a derived system.", "anchors": ["beluga/symbolic/data_classes/mapping_functions.py: Dualize lines 304-395", "beluga/symbolic/differential_geometry/differential_geometry.py: noether lines 168-202"]}
{"id": "C78", "title": "The reduced problem has the same solutions as the full problem", "statement": "With the geometric method, differential control and momentum shift, every declared symmetry removes one state and one costate from the boundary value problem and adds one parameter and one quadrature; the removed symbols do not occur any more, and the solutions of the reduced problem are exactly the solutions of the full problem, with the parameter equal to the conserved quantity and the quadrature to the removed state up to a constant.", "quantifier": "every problem with symmetries, every trajectory", "why_tests_cant": "The reduction rewrites every equation; a test solves one problem.", "anchors": ["beluga/symbolic/data_classes/mapping_functions.py: MishchenkoFomenko lines 506-658, make_indirect_method lines 855-938", "beluga/symbolic/differential_geometry/differential_geometry.py: pb lines 149-165, noether lines 168-202"]}
{"id": "C79", "title": "Exactly the declared symmetries and constants of motion are used to reduce the problem", "statement": "The constants of motion eliminated by the reduction steps are the ones that belong to the declared symmetries and the declared constants of motion, in order, each once, and never the Hamiltonian.", "quantifier": "every problem, every number of reductions", "why_tests_cant": "All numbers and kinds of symmetries.", "anchors": ["beluga/symbolic/data_classes/mapping_functions.py: Dualize lines 304-395, MishchenkoFomenko lines 506-658, make_indirect_method lines 918-924"]}
{"id": "C80", "title": "The trajectory mappers of the reduction carry solutions to solutions", "statement": "The mapper that every reduction appends takes the samples of a trajectory of the full problem to the samples of the trajectory of the reduced problem that stands for it (removed columns, new parameter, new quadrature), and its inverse takes them back, exactly.", "quantifier": "every problem with declared translations, every solution, every list of sample times", "why_tests_cant": "A numerical round trip on one solution does not show that the columns are the reduced solution.", "anchors": ["beluga/symbolic/data_classes/mapping_functions.py: MishchenkoFomenko lines 506-658", "beluga/numeric/data_classes/trajectory_mappers.py: MF lines 283-366"]}
{"id": "C81", "title": "The collocation solver is handed the compiled problem and its answer is read back unchanged", "statement": "For a guess with the shapes of the problem, the functions that SPBVP passes to solve_bvp describe exactly the compiled problem: a trajectory with parameters and multipliers meets them to any accuracy if and only if it meets the compiled equations and conditions to that accuracy. The states, quadratures, parameters and multipliers returned are the parts of the answer of solve_bvp, on its mesh; its success flag and message are passed on; its exceptions are passed on.", "quantifier": "every compiled problem with or without quadratures, every guess, every answer of solve_bvp", "why_tests_cant": "Splitting and joining of columns is only seen to be right when every size is covered.", "anchors": ["beluga/numeric/bvp_solvers/SPBVP.py: solve lines 26-128"]}
{"id": "C82", "title": "Every field of a trajectory returned by the collocation solver has one row per node", "statement": "After SPBVP.solve, states, quadratures, costates and controls of the returned trajectory have as many rows as there are times.", "quantifier": "every problem, guess and answer of solve_bvp", "why_tests_cant": "The mesh that solve_bvp returns depends on the problem.", "anchors": ["beluga/numeric/bvp_solvers/SPBVP.py: solve lines 103-128"]}
{"id": "C83", "title": "A converged continuation step returns a solution of the compiled problem at the constants of the step", "statement": "With scaling switched on or off, when the collocation returns samples of a solution of what it was handed, the trajectory stored by the continuation loop consists of samples of a solution of the compiled problem, on the time interval of the guess and at the constants of the step.", "quantifier": "every dimensionally consistent problem, reference values, guess with the shapes of the problem", "why_tests_cant": "Scaling, collocation and unscaling each touch every field; a test sees one problem.", "anchors": ["beluga/continuation/continuation.py: run_continuation_set lines 523-580", "beluga/numeric/bvp_solvers/SPBVP.py: solve lines 26-128", "beluga/numeric/data_classes/NumericProblem.py: compile_scaling lines 366-422"]}
{"id": "C84", "title": "The Jacobian functions handed to solve_bvp return the documented number of arrays", "statement": "With unknown parameters or multipliers the derivative Jacobian function returns two arrays and the boundary one three; without any, one and two.", "quantifier": "every problem with analytical Jacobians", "why_tests_cant": "Depends on the number of parameters of the problem.", "anchors": ["beluga/numeric/bvp_solvers/SPBVP.py: solve lines 65-101"]}
{"id": "C85", "title": "A solution of the generated boundary value problem is a stationary point of the optimal control problem", "statement": "Run the indirect method (either adjoint method, algebraic or differential control, time normalised). Let trajectory, parameters and multipliers solve the compiled boundary value problem exactly. Then the curve of named values they stand for, in unscaled time, obeys the equations of motion and boundary conditions of the problem handed to Dualize, makes the Hamiltonian stationary in every control at every time, and the first variation of the cost vanishes for every variation of states, controls and final time that keeps the equations of motion and boundary conditions to first order.", "quantifier": "every problem without unknown parameters and quadratures, every sound symbolic linear solver and every sound control solver, every exact solution of positive duration; for geometric differential control time must be the last state", "why_tests_cant": "It is a statement about all variations of a curve and about every problem; a test sees one numerical solution, usually of a problem with a known answer.", "anchors": ["beluga/symbolic/data_classes/mapping_functions.py: Dualize lines 304-395, AlgebraicControlLaw lines 398-417, DifferentialControlLaw lines 420-503, SquashToBVP lines 661-683, NormalizeTime lines 686-720, make_indirect_method lines 856-938", "beluga/numeric/compilation/component_compilation.py: compile_control lines 8-37"]}
{"id": "C86", "title": "Making time a state keeps stationary points", "statement": "If a curve obeys the constraints and makes the cost stationary in the problem with time as a state, and the clock starts at the initial time, it does so in the problem of the user. Without two-sided bounds and switches this is the problem that the indirect method dualises.", "quantifier": "every problem, curve and interval; names distinct", "why_tests_cant": "A statement about all variations of a curve.", "anchors": ["beluga/symbolic/data_classes/mapping_functions.py: MomentumShift lines 142-183, make_indirect_method lines 856-938"]}
{"id": "C87", "title": "The trajectory handed back is a sampled stationary point of the problem as written", "statement": "Run the indirect method on a problem and map a solution of the boundary value problem (at any nodes) back through the inverse mappers. The mapping succeeds, and the returned times, states, controls and costates are samples of one curve, in the time of the user, that obeys the equations of motion and boundary conditions as the user wrote them and makes the cost stationary under every admissible variation.", "quantifier": "every problem without two-sided bounds, switches, unknown parameters and quadratures, every exact solution of positive duration, every node list; algebraic, differential (traditional) and geometric (with the momentum shift) control", "why_tests_cant": "It quantifies over problems, solutions, node lists and variations, and spans symbolic transformation, compilation and the inverse mappers; a test compares one trajectory to a known answer.", "anchors": ["beluga/symbolic/data_classes/mapping_functions.py: MomentumShift lines 142-183, Dualize lines 304-395, AlgebraicControlLaw lines 398-417, DifferentialControlLaw lines 420-503, SquashToBVP lines 661-683, NormalizeTime lines 686-720, make_indirect_method lines 856-938", "beluga/numeric/data_classes/trajectory_mappers.py: MomentumShiftMapper, DualizeMapper lines 112-127, AlgebraicControlMapper, DifferentialControlMapper, DifferentialControlMapperDiffyG, SquashToBVPMapper, NormalizeTimeMapper", "beluga/symbolic/data_classes/symbolic_problem.py: map_sol, inv_map_sol"]}
{"id": "C88", "title": "The reported cost is the cost of the returned trajectory", "statement": "The cost of the returned trajectory is the initial cost at the first sample plus the terminal cost at the last plus the integral of the path cost as the user wrote them; inverse mapping of a solution does not fail.", "quantifier": "every problem as in C87, every exact solution with nodes from 0 to 1; the integral is exact when the path cost is quadratic in time along the curve and there are at least three nodes", "why_tests_cant": "The mappers replace, delete and rescale columns before and after the cost is evaluated; only an argument about the whole chain shows that the numbers which reach the cost function are those of the user.", "anchors": ["beluga/numeric/compilation/component_compilation.py: compile_cost lines 40-59", "beluga/numeric/data_classes/trajectory_mappers.py: DualizeMapper lines 112-127", "beluga/symbolic/data_classes/mapping_functions.py: Dualize lines 304-395, utm"]}
{"id": "C89", "title": "Every converged trajectory that solve hands back is a sampled stationary point", "statement": "From the first guess through every continuation step, with or without scaling, to the list handed to the caller: each trajectory marked converged whose duration is positive consists of samples of one curve, in the time of the user, that satisfies the problem as written, at the constants of that case, and makes its cost stationary; its reported residuals are zero; a finished manual or bisection step ends at the constants asked for.", "quantifier": "every problem as in C87, every continuation set and strategy, every guess of matching shape, every scaling, and every solve_bvp that is exact when it reports success (and may fail or answer anything otherwise)", "why_tests_cant": "It is a statement about all runs of the whole program: transformation, compilation, scaling, the collocation wrapper, the continuation loop and the inverse mappers composed. A test sees one run of one problem.", "anchors": ["beluga/beluga.py: solve lines 181-189, postprocess_continuations lines 205-224", "beluga/continuation/continuation.py: run_continuation_set lines 500-618", "beluga/numeric/bvp_solvers/SPBVP.py: solve", "beluga/numeric/data_classes/trajectory_mappers.py"]}
{"id": "C90", "title": "With bounds on controls and paths, the returned trajectories keep the bounds and solve the regularised problem", "statement": "For a problem with two-sided constraints handled by EpsTrig and UTM, every trajectory that solve returns as converged with positive duration consists of samples of a curve that obeys the equations of motion and the one-sided boundary conditions as written, keeps every control bounded by EpsTrig between its bounds, and comes from a stationary point of the cost plus the stated charges; the reported cost is that regularised cost; a path constraint kept by UTM that holds at one time holds at all times, and every path constraint holds on the returned trajectory.", "quantifier": "every problem with bounds (any number of constraints of either kind, at either end or along the path) and no switches, both methods, algebraic or differential control, with or without time as a state, any continuation set, scaling, guess of matching shape, and any solve_bvp that is exact when it reports success", "why_tests_cant": "The bounded control is replaced by an angle, the bounds by costs, the problem dualised, normalised, squashed, scaled and solved, and all of it undone; that the bound holds on what comes back, for all bounds and all runs, is out of reach of samples, and the periodic barrier fails only for boundary values outside the bounds.", "anchors": ["beluga/symbolic/data_classes/mapping_functions.py: EpsTrig lines 186-225, UTM lines 228-288, make_indirect_method lines 856-938", "beluga/numeric/data_classes/trajectory_mappers.py: EpsTrigMapper lines 65-109", "beluga/beluga.py: solve lines 181-189, postprocess_continuations lines 205-224"]}
{"id": "C91", "title": "The guess made from a few settings fits the generated boundary value problem, and what solve returns from it is right", "statement": "For settings of modes auto and ones whose sizes match the problem of the user, or a trajectory of the user, the guess that reaches the continuation loop has the number of columns, parameters, multipliers and constants of the generated boundary value problem, runs from 0 to 1, has the chosen duration (negative for a reversed one) as its parameter, begins with the given initial state, and is always made (in mode auto whenever the integrator answers); hence solve, from the settings to the mapped-back trajectories, returns sampled stationary points for all converged cases of positive duration.", "quantifier": "every problem covered by C89 or C90 without nondynamical parameters of its own, both methods, algebraic or differential control (one control in the geometric case), with or without time as a state, any start, any costate guess (number or array), any control guess of matching size, any integrator that reaches the end, any continuation set, with or without the initial helper", "why_tests_cant": "The shape of the guess is decided by a chain of mappers that insert columns for time, controls and costates, move the duration to the parameters and rescale the time; tests run it on some problems with settings that happen to fit.", "anchors": ["beluga/continuation/guess_generators.py: auto lines 95-152, ones lines 175-226, static lines 70-72, match_constants_to_states lines 229-249", "beluga/beluga.py: solve lines 161-189", "beluga/numeric/data_classes/trajectory_mappers.py: map of every mapper", "beluga/numeric/ivp_solvers/ivpsol.py: Propagator lines 67-104"]}
{"id": "C92", "title": "A boundary value solution up to a tolerance gives a trajectory that is feasible and stationary up to that tolerance", "statement": "If the solution handed to the mappers satisfies the rates of the boundary value problem up to delta and its boundary conditions up to eps, the trajectory returned consists of samples of a curve along which the equations of motion of the user hold up to delta / duration and the boundary conditions up to eps, and the first variation of the cost is bounded by eps times the size of the variation at the ends plus delta / duration times its size along the curve; the stationarity condition of the control holds exactly (algebraic) or up to eps (differential). The collocation solver hands over such a solution whenever the result of solve_bvp satisfies the handed problem up to eps, with errors multiplied by the scale factors if scaling is on.", "quantifier": "every problem covered by C87, all admissible variations including moving ends, all tolerances; algebraic control with either method, differential control with the traditional method; without or with scaling", "why_tests_cant": "Solvers never return exact solutions, so what users rely on is a statement about tolerances; tests compare a few runs with known optima and cannot bound the first variation for all admissible variations.", "anchors": ["beluga/numeric/bvp_solvers/SPBVP.py: solve lines 26-128", "beluga/continuation/continuation.py: run_continuation_set lines 523-580", "beluga/symbolic/data_classes/mapping_functions.py: Dualize lines 304-395, AlgebraicControlLaw lines 398-417, DifferentialControlLaw lines 420-503", "beluga/numeric/data_classes/trajectory_mappers.py: inv_map of every mapper"]}
{"id": "C93", "title": "With unknown parameters, solutions of the derived boundary value problem are stationary points of the optimal control problem", "statement": "If a problem has unknown parameters, a solution of the boundary value problem obeys the equations of motion, the boundary conditions and the stationarity of the control, and the first variation of the cost vanishes for all admissible variations, those of the parameters included. (Refuted: NormalizeTime does not multiply the rates of the multipliers of parameters by the duration; the first variation equals (1 - duration) times what the ends pull at the parameters. It vanishes if the ends do not depend on the parameters.)", "quantifier": "every problem with parameters, traditional method, algebraic control, all solutions, durations and admissible variations including moving ends", "why_tests_cant": "A wrong optimum of a parameter looks like any other converged trajectory: all residuals are zero. Only the comparison of the first variation over all variations shows it, and no test in the repository has a parameter.", "anchors": ["beluga/symbolic/data_classes/mapping_functions.py: Dualize lines 304-395, NormalizeTime lines 686-720, SquashToBVP lines 661-684", "beluga/symbolic/data_classes/symbolic_problem.py: parameter lines 103-106", "beluga/numeric/data_classes/NumericProblem.py: compile_bc lines 156-230"]}
{"id": "C94", "title": "The initial helper makes the first guess meet the boundary conditions it names", "statement": "With the initial helper on, the constants x_0, x_f of every state (and ind_0, ind_f of the independent variable) that exist hold the first and last values of the first guess mapped back to the original problem; every other constant keeps its value. Hence the conditions x - x_0 and x - x_f of the boundary value problem have residual zero at the first guess.", "quantifier": "every problem with or without bounds (no switches, parameters or reduction), both methods, every generated guess or user trajectory, every set of constants", "why_tests_cant": "A helper that takes the wrong end, the wrong column or drops the constants still returns a trajectory, and the solver may converge from it anyway; which columns end up where depends on every mapper in the chain.", "anchors": ["beluga/beluga.py: solve lines 161-189", "beluga/continuation/guess_generators.py: match_constants_to_states lines 229-249", "beluga/symbolic/data_classes/mapping_functions.py: inverse mappers"]}
{"id": "C95", "title": "A problem with switches is solved as the problem with the smoothed functions written out", "statement": "Replacing the switches by RASHS changes nothing else: the boundary value problem and the mappers are those of the same problem with each smoothed function written in place of its switch, whatever momentum shift, UTM and EpsTrig steps come before. Hence every converged trajectory that solve returns shows a curve along which each switch has the value of its smoothed function, which satisfies the equations of motion, boundary conditions and bounds the user wrote with the switches in them, and which comes from a stationary point of the problem with barriers and smoothed functions put in.", "quantifier": "every problem with any number of switches (nested without cycles, names of their own, not in the bounds of a trigonometric constraint), with or without bounds, both methods, algebraic or differential control, every continuation and guess", "why_tests_cant": "A switch left in one expression, replaced by an unexpanded function or replaced after the costates were formed gives a boundary value problem that still compiles or fails only for some nestings; the effect on the solution is a small error near the switching point.", "anchors": ["beluga/symbolic/data_classes/mapping_functions.py: rashs lines 291-301, make_indirect_method lines 856-938", "beluga/symbolic/data_classes/components_structures.py: SwitchStruct lines 268-288", "beluga/beluga.py: solve lines 161-189"]}
{"id": "C96", "title": "A problem declared with quantities is solved as the problem with the quantities written out", "statement": "Quantities may be defined through each other in any order and appear anywhere: in the equations of motion, the costs, the boundary conditions and bounds, and in the functions and conditions of switches. Every converged trajectory that solve returns shows a curve along which each quantity has the value of its defining expression and each switch the value of its smoothed sum, which satisfies the equations of motion, boundary conditions and bounds exactly as the user declared them, and which comes from a stationary point of the problem in which quantities, switches and bounds are put in.", "quantifier": "every declared problem with any number of quantities (each defined once, without cycles, names of their own) and switches, with or without bounds, both methods, algebraic or differential control, every continuation and guess", "why_tests_cant": "A quantity that is substituted before it is expanded, or skipped in one place, gives the right problem for most declaration orders; tests declare quantities in one order. That the returned trajectory satisfies the declared equations needs the composition of all steps.", "anchors": ["beluga/symbolic/data_classes/mapping_functions.py: ApplyQuantities lines 121-139, make_preprocessor lines 791-797", "beluga/symbolic/data_classes/symbolic_problem.py: subs_all lines 243-268, sympify_self lines 270-317", "beluga/beluga.py: solve lines 132-189"]}
{"id": "C97", "title": "Messages are shown from the display level on and written from the file level on", "statement": "After init_logging or add_logger a message appears on the screen exactly once if its level is at least display_level and not otherwise, and in the log file exactly once if its level is at least file_level and not otherwise, whatever loggers were set up before. The progress bar of a continuation is shown exactly for display levels from INFO up to below WARN, and its label is always 30 characters wide.", "quantifier": "all levels, file names, message levels, earlier logger states and root loggers; all step names", "why_tests_cant": "Tests replace or ignore the logger. Which messages appear depends on the level of a logger the library does not own (the root logger), which differs between test runners and user scripts.", "anchors": ["beluga/utils/logging.py: init_logging lines 11-36, fit_string lines 39-49, line 52", "beluga/beluga.py: add_logger lines 18-37", "beluga/continuation/continuation.py: lines 558-566"]}
{"id": "C98", "title": "A trajectory can be indexed, sliced and looped over like the sequence of its samples", "statement": "trajectory[i] returns entry i of every array that is not empty, negative indices count from the end, any other index raises IndexError; a for loop visits exactly len(trajectory) samples in order and ends; Trajectory(*trajectory[a:b]) is the part between a and b; Trajectory(trajectory) has the same samples and keeps its interpolation.", "quantifier": "all trajectories, indices and slices with step one; all numbers of samples", "why_tests_cant": "The loop protocol relies on which index first raises IndexError; that a loop over a trajectory without samples does not end cannot be seen by a test that finishes, and arrays of different lengths are cut silently.", "anchors": ["beluga/numeric/data_classes/Trajectory.py: __new__ and __init__ lines 15-62, set_interpolate_function lines 158-168, __getitem__ and __len__ lines 170-193"]}
{"id": "C99", "title": "The generated functions mention only their arguments", "statement": "If every name in the declared problem is a state, control, parameter, constant or switch (or the independent variable), then after the indirect method the functions handed to the solver (rates of the states and costates, quadratures, boundary conditions, control law) return a result of the right length on all arguments of the right lengths: no NameError from a name left over by a transformation.", "quantifier": "all problems, options (algebraic or differential control, traditional or diffyg), numbers of constraints and nested switches, all argument values", "why_tests_cant": "Functions are compiled from text whose free names depend on the whole chain of substitutions; a test calls them for a handful of problems only. That no name is left over for any problem needs an induction over the transformations.", "anchors": ["beluga/symbolic/data_classes/mapping_functions.py: lines 142-503, 661-720, 856-938", "beluga/numeric/data_classes/NumericProblem.py: lines 60-230", "beluga/numeric/compilation/component_compilation.py: compile_control lines 8-37"]}
{"id": "C100", "title": "Solutions can be mapped back to the problem of the user", "statement": "For every problem whose names are declared, a trajectory with the shape of the boundary value problem passes through the inverse of the mapping chain: the cost reported to the user is computed and no mapper raises, also with unknown parameters and with costs that depend on the controls.", "quantifier": "all problems with declared names, options, numbers of samples, trajectories and functions", "why_tests_cant": "The mapping back runs after the last continuation step, with functions compiled from another stage of the problem than the one solved. Tests run a few problems without unknown parameters; that the chain fails on every trajectory of every problem with one is a statement about the whole pipeline.", "anchors": ["beluga/numeric/data_classes/trajectory_mappers.py: DualizeMapper lines 112-147, SquashToBVPMapper lines 348-370", "beluga/numeric/compilation/component_compilation.py: compile_cost lines 40-59", "beluga/symbolic/data_classes/symbolic_problem.py: map_sol lines 323-334", "beluga/symbolic/data_classes/mapping_functions.py: Dualize lines 304-395, SquashToBVP lines 661-683"]}
