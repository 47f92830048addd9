# Formal model of beluga: design

Target: the Python package in `/repo/beluga` (release 0.5.0).  The code is not run; every model
definition cites the file and lines it was read from.

## Trusted base

* Coq 8.16.1's kernel (and `coqc`), and the reading of the Python code that produced the models.
* Axioms: only those of Coq's standard library, as printed by `Print Assumptions` under each theorem in the
  `*_Properties.v` files and collected in section "Assumptions per theorem" below.  Theorems over real numbers use
  the standard library's classical reals (`ClassicalDedekindReals.sig_forall_dec`, `sig_not_dec`,
  `functional_extensionality_dep`) and, through Coquelicot lemmas, `Classical_Prop.classic` and friends of the
  standard library.  The two witnesses of C89 that build a solver by choice (`C89_ideal`, `C89_duration_positive_refuted`)
  use `ClassicalEpsilon.constructive_indefinite_description`.  Everything else is axiom free.
* No axiom, parameter or unproved obligation is declared in this development.
* External code (numpy, scipy, sympy, numba, pickle, the OS) is represented either by a small Gallina definition of
  the documented behaviour that is used (np.linspace, np.insert, np.delete, argmin, expression substitution and
  differentiation, ...), or by a universally quantified function (the BVP solver, the ODE integrator, the boundary
  function, scipy's root finders).  What is assumed of such a function is always an explicit hypothesis of the theorem.

## Method

* One group of files per area: `X_Model.v` (definitions only, mirroring the code branch by branch; Python exceptions
  are values of type `res`; mutation becomes a returned new state; unbounded loops run on fuel with an explicit
  out-of-fuel value), `X_Spec.v` (independent specification predicates), `X_Proofs.v`, and `X_Properties.v` (only the
  property theorems, each followed by `Print Assumptions`, and `Example`s that exercise the hypotheses).
* Numbers.  Structure-only code is polymorphic in the element type, so its theorems also cover floats.
  Code with arithmetic whose guarantees do not depend on rounding takes a record of arithmetic operations
  (`NumOps`) without laws: theorems hold for any implementation of the operations, IEEE doubles included.
  Everything else is stated over the reals `R`; rounding is then outside the model and this is said at the definition.
* When the model, faithful to the code, violates a property, the theorem is named `..._refuted` and proves that a
  concrete witness violates it; the strongest true variant is proved beside it.

## Plan per property

| id | modelled | how it is proved |
|----|----------|------------------|
| C01-C08, C11, C12 | continuation.py: strategies as a state record, `init`/`next`/`reset`, `run_continuation_set` with an arbitrary solver function of the call number and the guess | invariants of the iterate loop by induction on fuel; refutations by running the model on a witness solver |
| C09, C10 | `ProductStrategy.init`, `SparseProductStrategy.init` | induction over the list of variables |
| C13 | `ContinuationList.add_step` | induction over the call list |
| C14-C21 | trajectory_mappers.py on lists of rows, with numpy insert/delete semantics, chains with aliasing | column-wise list lemmas; the chain theorem composes them |
| C22 | candidate selection loop | induction over candidates |
| C23 | scaling | induction over lists, field arithmetic |
| C24 | GenericFunctor objects | denotation as function composition, induction over expressions |
| C25, C26 | constraint lists, make_indirect_method counting, EpsTrig/UTM elimination | invariants of the elimination loop |
| C27-C29 | penalty / substitution / switch formulas over R | real analysis |
| C30, C41 | expression trees with substitution and evaluation | induction over expressions and over the quantity list |
| C31, C33-C35, C37 | symbolic differentiation on expression trees, Dualize, NormalizeTime, differential control law | correctness of symbolic differentiation, chain rule along curves |
| C66, C67 | MomentumShift, AlgebraicControlLaw and the choice of the control at run time | curves and real analysis; a verified solver for affine systems meets the contract of sympy.solve |
| C65 | the derived boundary-value problem against the first variation of the cost | adjoint identity, fundamental theorem of calculus |
| C32 | counts of boundary conditions and unknowns through the pipeline on list lengths | arithmetic over all dimensions |
| C36 | matrices as functions/lists | case analysis on indices |
| C38-C40 | Problem declaration API and name table, shared compiler object, unit check | invariants over operation sequences |
| C42-C50 | Shooting.py/BaseAlgorithm.py | list lemmas, loop invariants with extended numbers (finite, inf, NaN) |
| C51, C52, C64, C68 | ivpsol.py, Trajectory.__call__ | list induction over Q with a rounding parameter; doubles by computation |
| C53, C69 | finite_diff.py, gen_num_diff, complex_step.py | Newton basis and induction over the grid; Coquelicot derivatives; polynomials over pairs |
| C54 | TableSpline1D | real analysis on one segment plus the tridiagonal system |
| C55 | construct_name on strings | witness; injectivity under conditions |
| C56, C57 | guess_generators.py | state machine, list lemmas |
| C58, C70, C71 | ComputeAnalyticalJacobians, compile_bc(_jac), compile_deriv(_jac), SPBVP wrappers | correctness of differentiation, list lemmas |
| C74-C76 | units through the transformations, compile_scaling, compile_control, compile_cost | a dimension judgement on expressions; induction over the judgement and over the transformation list; derivative of a rescaled curve |
| C77-C80 | MishchenkoFomenko, its trajectory mapper, noether, pb, symmetries through MomentumShift and Dualize | one reduction step as a change of variables (Red_Step), invariant `reducible` kept by a step (Red_Reduce, Red_Chain), shown for the result of the indirect method (Red_Ocp) |
| C81, C82, C84 | SPBVP.solve | the handed functions are compared with the compiled ones for arbitrary curves; solve_bvp is an arbitrary function |
| C83 | solve part of the continuation loop with scaling | composition of C81 with C74 and scale_sol |
| C85 | the whole indirect method, from the user's problem to the compiled boundary value problem | a solution is turned into a curve of named values in unscaled time; composition of C65, C34/C67, NormalizeTime, SquashToBVP and the compiled functions |
| C86 | MomentumShift at the start of it | variations of the problem are extended by a zero variation of the clock |
| C87 | the indirect method with the mappers each step appends, and inv_map_sol over them | each inverse mapper keeps a sampled curve; composition with C85, C86 |
| C88 | compile_cost, DualizeMapper's use of it, scipy.integrate.simpson | the same chain; Simpson's rule is exact on quadratics; refutations for a cost in time and for penalties |
| C89 | solve from the first guess to the returned list: run_continuation_set over loop_solve over SPBVP, postprocess_continuations | invariants of the continuation loop, composition of C81, C83, C87; a solver that answers with the backward solution refutes the version without positive duration |
| C90 | C89 with EpsTrig and UTM between the user's problem and Dualize | an inverse of the stage (angle to control), composed step by step; intermediate value theorem for the barrier; a trajectory at rest at x = 2 with -1 <= x <= 1 refutes the unconditional version |
| C91 | guess_generator settings or a user trajectory, mapped, propagated, helped, controls added, then C89 / C90 | forward pass of every mapper on a laid-out trajectory (`lay`), shapes carried through; default control guess with differential or bounded control and a stopped integration refute the unconditional version |
| C92 | approximate solutions: rates up to delta, boundary conditions up to eps | the chain of C85 to C87 redone with defects (`near`, `follows_near`); adjoint identity with a defect term and a mean value bound give the first variation; C81 / C83 with eps |
| C93 | unknown parameters, their multipliers as quadratures of the boundary value problem | the curve of C85 with quadratures (`qcurve`); adjoint identity with the rates too slow by the factor D; witness by computation |
| C94 | the initial helper: match_constants_to_states on the guess mapped back | first and last samples (`tops`) carried back through every inverse mapper; residuals of x - x_0, x - x_f |
| C95 | problems with switches from declaration to returned trajectories | replacing the switches first commutes with momentum shift, UTM and EpsTrig; then C91 for the problem without switches; values carried back by an assignment consistent with the switches |
| C96 | problems with quantities from declaration to returned trajectories | the two loops of ApplyQuantities as one sequential substitution; C95 for the preprocessed problem; values carried back by the assignment that evaluates each quantity |
| C97 | screen and file messages, progress bar | case analysis over the levels; Python's effective level and handler loop modelled |
| C98 | trajectory as a sequence | index arithmetic; induction over the loop of Python's iteration protocol |
| C99 | free names of the generated functions | invariant over all functors: names mentioned are arguments or not yet eliminated; rank argument for nested switches |
| C100 | mapping a solution back, with the reported cost | the invariant of C99 at the stage that Dualize keeps; no mapper changes the quadratures; counting quadratures through the pipeline; mappers left as they are by the way back (Report_Properties.v) |
| C59, C60, C72, C73 | save/load with a crash model, solve as a sequence of effects | case analysis over crash points, a lemma for sequencing |

Outside the model (cannot be expressed here): running time, numerical accuracy of scipy integrators and solvers,
numba code generation, multiprocessing scheduling, floating-point rounding unless stated.

## What is and is not modelled

Modelled (file groups in `rocq/theories`):

* `Cont_*`: beluga/continuation/continuation.py, all strategies, `ContinuationList`, and the solve loop around them
  (beluga/beluga.py `run_continuation_set`).  The solver is a function of the call number and the guess.
  Not modelled: the process pool (logging and the progress bar: `Log_*`).
* `Map_*`, `Scale_*`: beluga/numeric/data_classes/trajectory_mappers.py and the scaling in NumericProblem.py.
  Compiled functions are parameters.
* `Sym_*`, `Functor_*`, `RecSub_*`, `Constr_*`, `Pen_*`, `Dual_*`, `Ctl_*`, `Norm_*`, `Count_*`, `Shift_*`: beluga/symbolic/data_classes/mapping_functions.py on deep-embedded expressions,
  GenericFunctor on a heap, `recursive_sub`.  Units are in `Unit_*`.  Not modelled: sympy's automatic simplification, user functions of
  several arguments.  `Matrix.LUsolve` and `sympy.solve` are
  parameters with explicit hypotheses.
* `Geo_*`: exterior_derivative, make_standard_symplectic_form and is_symplectic of
  beluga/symbolic/differential_geometry/differential_geometry.py (pb and noether are in `Red_*`; not: total_derivative).
* `Spbvp_*`: SPBVP.solve (beluga/numeric/bvp_solvers/SPBVP.py lines 26-128). scipy's solve_bvp is a parameter; numpy vectorisation over
  mesh points is a map over columns; the Jacobian functions are modelled up to the shape of what they return.
* `Pipe_*`: the solve step of run_continuation_set (beluga/continuation/continuation.py lines 523-545, 566-580): scaling, solver, unscaling.
* `Whole_*`: no new code; composes the models of make_indirect_method's steps (`Sym_*`), the compiled functions (`Jac_*`, `Unit_*`) and
  the variational theorems. Not covered there: quadratures of the user, reduction. `Near_*` extends it to approximate solutions, `Par_*` to unknown parameters (traditional method, algebraic control).
* `Chain_*`: which mapper each step appends and with which data (mapping_functions.py, the `sol_map` of each transformation), the cost function
  (component_compilation.py lines 40-59) and the Hamiltonian and control law the mappers call. The quadrature is a parameter; `scipy_simpson` is the
  instance for scipy 1.11 to 1.16 (composite rule, Cartwright correction for an even number of samples). Quadrature columns, unknown parameters,
  two-sided bounds and switches are outside C87; C90 adds bounds, C93 parameters and C95 switches (`p1_samples` covers any steps before Dualize).
* `Full_*`: the call of run_continuation_set and postprocess_continuations (beluga.py lines 181-189 and 205-224) and the body of the case loop
  (continuation.py lines 569-612, with the residuals that are logged). Constants of a trajectory are kept once, beside its body. Pools, progress bars,
  saving and timing are not modelled. `C89_ideal` shows with classical choice that a solver as assumed exists.
* `Bound_*`: no new model; the stage of EpsTrig and UTM steps of `Sym_Model` composed with `Chain_Model` and `Full_Model`. Switches (RASHS) are excluded there.
* `Start_*`: beluga.solve lines 161-189 from the generator's settings to the returned trajectories; solve_ivp is a parameter (C91 assumes it reaches the end, `ivp_ok`), quadratures are absent in the theorems (problems of users without quadratures).
* `Help_*`: no new model code; proofs about `Start_Model.helped` (beluga.solve lines 161-175) and the inverse mapper chain on a first guess. The guess
  need not satisfy any equation; only its first and last samples are followed.
* `Swi_*`: no new model code; proofs about the pipeline of `Sym_Model` with `FRashs` in it (make_indirect_method lines 856-938) and `Start_Model.solve_run`.
* `Qty_*`: `preprocess` (make_preprocessor, mapping_functions.py lines 791-797): Sympify then ApplyQuantities. Parsing of strings is not modelled.
* `Log_*`: init_logging, add_logger, fit_string, the switch of the progress bar; of Python's logging module the effective level and the handler loop (logging.disable, formats and file opening left out).
* `Trj_*`: construction, indexing, length and iteration of Trajectory; objects as addresses in a store for Trajectory(gamma).
* `Args_*`: no new code; free names through all functors of `Sym_Model` into the compiled functions of `Jac_Model` and `Unit_Model`. The linear and the nonlinear solver of sympy appear through the contracts `lu_closed` and `solve_closed` (no new symbols, one expression per unknown).
* `Back_*`: no new code; the inverse chain of `Chain_Model` on trajectories with and without quadratures. A compiled function that unpacks no names from a non-empty array raises ValueError (`fits` in `Jac_Model`), as Python does for `[] = a`.
* `RedMap_*`: the mapper MishchenkoFomenko appends (beluga/symbolic/data_classes/mapping_functions.py lines 521, 568, 607-622, 643-655); lambdify
  is evaluation at the named arguments.
* `Red_*`, `Reduction_Properties`: symmetries and constants of motion through MomentumShift, Dualize, DifferentialControlLaw, NormalizeTime and
  MishchenkoFomenko; pb and noether.  sympy's automatic evaluation is modelled in part (`simp`).  `LUsolve`, `integrate` and `solve` are
  parameters with explicit contracts, met by executable instances.  Not modelled there: units of the new components, several dictionaries
  with several keys from `solve`.
* `Decl_*`: the declaration functions of Problem, the name table shared between copies, the names that each
  transformation registers there, `CostStruct.check_path_units`.  Units are an arbitrary type with mul/div.
* `Shoot_*`, `Armijo_*`: beluga/numeric/bvp_solvers/Shooting.py (packing, residual, arcs, Armijo loop, convergence flags,
  message, stitching) and the setters of BaseAlgorithm.py.  The integrator, the linear solver and scipy's `minimize`,
  `root` and `fsolve` are parameters.  Not modelled: the analytic Jacobian, which `solve` defines and does not use.
* `Ivp_*`: ivpsol.py (fixed-step grid, integration nodes, quadratures) and Trajectory.__call__ with linear interpolation.
  Rational numbers with a rounding function: the identity, or rounding to 53 bits.  The Runge-Kutta stepping of
  `solve_ivp` and the Simpson rule are outside or parameters; an exception of class `Exception` is a RuntimeError.
* `Fd_*`: finite_diff.py (weights, stencils, several arguments), gen_num_diff, and the formulas of complex_step.py.  Numba compilation is
  transparent except that code numba cannot type makes it use the plain Python version; the constant 1e-50 is a parameter.
* `Spline_*`: TableSpline1D of tables.py (coefficients, interval search, evaluation of value and three derivatives).  numpy.linalg.solve is
  a parameter with a contract (solves when a solution exists); an executable Gauss elimination satisfies it.  Sympy wrappers, table display
  and the two-dimensional table are not modelled.
* `Name_*`: construct_name, CustomFunction naming and fdiff, and the shared table of functions by name, on strings.  Sympy printing of an
  argument is the identity on symbols; expression arguments enter as their printed text.
* `Guess_*`: guess_generators.py: the generator object with its settings, setup and generate up to the trajectory handed to the mappers,
  repeated static guesses through `Map_Model.map_sol`, and match_constants_to_states.  The propagation afterwards is `Ivp_*`.
* `Jac_*`: ComputeAnalyticalJacobians, the compiled boundary function, derivative function and their Jacobians, and the functions SPBVP hands
  to `solve_bvp` for one column.  Numba is transparent; derivatives are not simplified as sympy would; reshaping of one-column blocks and
  `solve_bvp` itself are not modelled.
* `Unit_*`: units of all components through every transformation, unit factors and component factors of compile_scaling, the compiled control
  law and cost functions.  Unit expressions denote positive numbers.  Not modelled: MishchenkoFomenko, the unit of an unknown symbol (NameError).
* `Solve_*`: storage.py over files of bytes, with the serialiser as a parameter (contract `pickler`) and a crash after any byte; solve of
  beluga.py as the sequence of its calls, each of which may raise.  What the calls compute is in the other areas.

## Findings

Each is a theorem whose name ends in `_refuted` (or a variant named in MANIFEST.json).

* C02 `ManualStrategy` with `num_cases` = 1 (the default): the only case is the starting point, so the step ends
  normally without having reached the requested end values.
* C04 The bisection step compares the convergence flag with `is False`; a falsy flag that is another object
  (`numpy.False_`, as SLSQP-based results give) is treated as converged.
* C07 A solver that fails on every other call keeps a bisection step running forever: nothing bounds the divisions.
* C08 Bisection and product steps do not restart from the last converged solution in all cases.
* C12 A product step returns normally although its last case failed; it raises only when the first case fails.
* C15 EpsTrig's forward map divides by the full range of the control instead of half of it, so mapping forward and
  back halves the distance of the control to the middle of its bounds.
* C16 NormalizeTime's inverse returns t - t0.
* C18 The geometric differential-control mapper loses the last costate with one control, and raises with two.
* C19 SquashToBVP computes the slice of the adjoints after appending them, so the inverse removes nothing.
* C21 Mapping a trajectory changes the caller's trajectory unless the chain contains a time normalisation.
* C22 If the first candidate control has a NaN Hamiltonian, it is selected.
* C23 A zero reference value gives a zero scale factor; scaling then divides by zero and loses the trajectory.
* C25 A path constraint with a single bound changes nothing in the problem the solver gets; a boundary constraint
  with a single bound becomes the equality `expr = 0`, whatever the bound.
* C29 The weight of an alternative of a switch adds one sigmoid per condition; with several conditions it tends to the
  number of conditions that hold, so it exceeds one where all hold and stays positive where one is violated.
* C30 Activators of constraints are not substituted, so a quantity used as activator reappears in the cost (EpsTrig)
  or makes the step fail (UTM).
* C31, C33 With the geometric method and parameters, `Dualize` takes the last n entries of the Hamiltonian vector field
  instead of entries n+k..2n+k: each costate gets the derivative with respect to another variable, and the multipliers of
  the parameters keep the equation 0.  The Hamiltonian is then not conserved.  A method name that is neither
  `traditional` nor `diffyg` leaves all costate equations 0 without an error.
* C32 Without time normalisation the condition on the final time is kept although the final time is not an unknown, so
  there is one condition too many; quadratures declared by the user get no condition for their initial values.
* C34 The differential control law leaves out the explicit time derivative of dH/du, so with `do_momentum_shift=False`
  and time in the problem the controls leave the stationary manifold.  The geometric law takes the last state for time,
  which is wrong unless MomentumShift ran.
* C35 `NormalizeTime` multiplies the equations of states and costates by the duration but not those of quadratures and
  of the multipliers of parameters.
* C36 `is_symplectic` does not test non-degeneracy.
* C38 `constraint_parameter` does not check its name; a rejected `scale` keeps the units before the duplicate; a constant
  whose value is not a number is not added but its name stays taken; the default name `_t` stays taken after the
  independent variable was replaced.
* C39 Copies of a problem share the name table, so after `solve` the user's problem refuses names such as `_tau`,
  `_lam_x` and `hamiltonian` that it accepted before.
* C40 The unit check reports a mismatch once per object: it overwrites the path-cost unit before raising.
* C42 When a guess has quadratures and there is no quadrature function (or all of them are NaN), the packed vector still
  contains them while the unpacking assumes none, so the parameters read back are quadratures.
* C45 Unconstrained `minimize` methods compare the squared norm with the tolerance.  For `fsolve` the error is computed
  at the guess, so an exact solution is reported as not converged and a bad one may be reported as converged.  For the
  `root` methods the flag says nothing about the residual with one unknown; with two or more, the message code raises
  ValueError whatever the result.
* C46 A residual equal to the tolerance is flagged as converged, and the message denies it.
* C47 The propagator ignores a failed integration.  If an arc stops early, the stitched trajectory has a gap and loses
  the first point of the next arc.
* C49 The serial code calls the derivative function with one argument list, the pool with another; one of the two
  raises, so the two never give the same arcs.
* C50 `SPBVP.solve` replaces the quadrature function when a guess has no quadratures; later solves keep the replacement.
* C51 Fixed-step propagation backwards (or over an empty interval) raises IndexError.  With doubles, `np.arange` can overshoot
  the end, for instance on [1, 1.3] with step 0.1; scipy then rejects the grid.
* C52 `integrate_quads` finds positions with `np.interp` and rounds up.  A limit one rounding unit after a stored time is
  rounded down to it, so the nodes go back; on a trajectory propagated backwards only one node is left and the integral is
  silently lost.
* C62 If the reduced quantity varies along the trajectory, the reduction mapper does not restore it.
* C68 `quick_reconstruct` calls the quadrature function with one more argument than `reconstruct`; with the function that
  beluga compiles it raises TypeError.  Interior rows are filled with zeros.
* C53 `gen_fin_diff` accepts an order list shorter than the argument list: numpy broadcasts the one shift to every argument, so
  `order=[1]` on f(x, y) = x + 10 y gives 11, the sum of the partial derivatives, instead of an error (`C53_short_orders_refuted`).
* C69 the second-order complex-step formula is evaluated at x + s: its error on x^3 is 6 s, first order in the step
  (`C69_second_refuted`).  With two or more arguments the first-order version calls `tuple(..., arg_len)` (TypeError on every call,
  `C69_several_fails`), and would not take the imaginary part either.
* C54 the last tabulated abscissa cannot be evaluated: the interval search returns the number of knots minus one, one past the last row of
  coefficients, an IndexError (compiled with numba without bounds checks: a read outside the array) — C54_last_abscissa_refuted.
* C54 left of the table the index is -1 and Python takes the last segment: the table of y = x gives -5 at -1 — C54_outside_refuted.
* C55 the generated name forgets argument positions: f(x, y) and f(y, x) both have 'df_dx', so evaluating one calls the other
  (C55_swapped_refuted); f(x, x) has one name for both partial derivatives (C55_repeated_refuted); a user function named like a derivative
  is called instead of it (C55_function_name_refuted); an expression argument gives a name that is no identifier (C55_expression_refuted).
* C56 settings given to the constructor `GuessGenerator(...)` are overwritten by the defaults two lines later (`C56_constructor_refuted`).
* C56 `param_guess` is stored and never read; `generate` has an argument of that name which `solve` does not pass, and the number of parameters
  is taken from an empty trajectory (`C56_param_refuted`, `C56_solve_no_parameters`).  A float `control_guess` becomes an empty control row.
* C56 a rejected `setup` has already stored the mode, direction and time (`C56_failed_setup_refuted`: integration time 0 afterwards).
* C56 in static mode the momentum shift works in place on the user's trajectory; the second guess contains the time twice
  (`C56_static_refuted`).
* C58 without initial conditions, or without terminal conditions, or with constraint parameters but no dynamical parameter, computing the
  analytical Jacobians is a TypeError (`sympy.Matrix([]).jacobian`), and with no parameter at all the compilation fails on `None`
  (`C58_one_sided_refuted`, `C58_no_parameters_refuted`), although the boundary function itself works.
* C58 a boundary condition containing a control gives a Jacobian that ignores the control law or cannot be evaluated (`C58_control_refuted`).
* C70 `make_indirect_method` compares `control_method == 'algebraic'` exactly but selects the control law with `.lower()`: with 'Algebraic' the
  analytical Jacobians are kept and leave out the derivative of the control law (`C70_spelling_refuted`, `C70_control_law_refuted`).
* C70 the direct method compiles the derivative Jacobian without the control argument: evaluating it is a NameError (`C70_direct_refuted`).
* C71 with quadratures SPBVP passes states and quadratures to a Jacobian of the states only and unpacks five blocks into three names:
  ValueError on every call (`C71_quadrature_always`).
* C59 `save` truncates the file before writing: a crash, or a value cloudpickle cannot serialise, destroys the results of earlier runs
  (`C59_crash_points`, `C59_unserialisable_refuted`).
* C60 the pool is closed on the normal path only: every exception (and interrupt) leaves it open; invalid inputs are rejected after the
  pool has been created (`C60_every_failure_leaks`, `C60_inputs_refuted`).
* C72 `method == 'direct'` is compared exactly while the indirect names are compared with `.lower()` (`C72_direct_case_refuted`).
* C73 `save` runs inside `solve`: when it raises, the finished computation is lost (`C73_save_failure_refuted`).
* C74 a user function or table of a dimensional argument is called with the scaled argument and its value is not scaled back, although
  autoscale is the default: the scaled problem is a different one (`C74_user_function_refuted`).
* C75 NormalizeTime multiplies the rates of states and costates by the duration but not those of the adjoints of parameters, whose unit
  then does not fit (`C75_parameter_normalized_refuted`).
* C75 the geometric method takes the last n entries of the canonical field as costate rates; with parameters these belong to parameters
  (`C75_parameter_geometric_refuted`).
* C75 nothing checks that an activator has the unit of the cost it is added to; the theorems ask for it (`activators`).
* C76 a unit declared through a quantity that is zero along the guess has factor zero (`C76_zero_reference_refuted`; see C23).
* C77 MomentumShift adds the translation of time as a symmetry if the equations of motion do not depend on time; the path cost is not looked
  at, so the quantity recorded for it need not be conserved (`C77_time_refuted`).  It is recorded after the declared ones and only used if
  there are more reductions than declared symmetries.
* C77 with parameters, fields have zeros appended for the costates only, and Dualize raises ValueError (`C77_parameters_rejected`).
* C78 for a symmetry that moves several states, the equation of the new quadrature still contains the removed state
  (`C78_combination_refuted`).
* C79 every reduction takes the constant of motion at index 1.  Without declared constants index 0 is the Hamiltonian; with a declared one,
  index 0 is the declared one and index 1 is the Hamiltonian, which is then eliminated (`C79_declared_refuted`).
* C79 with algebraic control the reduction fails on the entries of the control law (`C79_algebraic_rejected`).
* C81: SPBVP counts quadratures from the guess, not from the problem: with a guess that has none, every call of the boundary function raises TypeError.
* C82: SPBVP.solve keeps the control of the guess on the mesh that solve_bvp returns.
* C84: without unknown parameters the boundary Jacobian function returns three arrays where solve_bvp documents two.
* C88: with `do_momentum_shift=False` and a cost that mentions the independent variable, the boundary value problem is built and solved but the inverse
  mapping calls the cost function without that variable and raises NameError (a KeyError in the model).
* C88: the cost is compiled after constraints were turned into penalties, so the reported cost includes them.
* C89: no constraint keeps the duration positive. For minimum-time-and-effort motion from x0 to x0+1 the generated problem has a second solution with
  duration -1; a solver that finds it reports convergence, and the returned trajectory has decreasing times.
* C90: the UTM barrier 1/cos is periodic: outside the bounds, between further poles, it is finite (even negative). Boundary values outside the bounds
  are not rejected, the solver converges, and the whole returned trajectory violates the path constraint.
* C91: the default control guess (0.1) is multiplied with `np.ones(self.dae_num_states)`, and dae_num_states is 0 and never set. With differential control
  the guess then lacks the columns of the controls; with EpsTrig, `sol.u[:, i]` raises IndexError. An array must be passed.
* C91: Propagator ignores the status of solve_ivp; an integration that stops early yields a guess that does not reach the end of the interval, and
  the boundary value problem is then posed on the shorter interval.
* C93 a parameter on which an end cost or a boundary condition depends is not optimal in the solution: NormalizeTime scales the rates of states and
  costates but not those of the multipliers of parameters, so the ends pull 1 / duration times too strongly (`C93_first_variation`, `C93_refuted`).
* C97 `init_logging` takes the minimum of display and file level as level of the
  logger. Without a log file that is NOTSET, which in Python means "ask the parent":
  INFO messages ("Solving OCP...") are not shown although display_level is INFO.
* C98 `Trajectory.__getitem__` never raises IndexError when all arrays are empty, so
  `for s in Trajectory()` and `list(Trajectory())` do not end. With arrays of
  different lengths the loop ends with the shortest. `Trajectory(gamma)` returns
  gamma itself and resets its interpolation to the kind it was created with.
* C99 With `do_momentum_shift=False` an equation that mentions the independent
  variable passes all transformations, but the compiled functions have no argument
  for it: NameError in every call (and no adjoint equation reports it earlier).
  A switch whose functions mention the switch itself is accepted and leaves its name
  behind in the same way.
* C100 `SquashToBVPMapper` is given `coparameter_idxs` and never uses it. With unknown
  parameters the solution keeps the quadratures of their multipliers, and the cost
  function of `DualizeMapper`, compiled for a problem without quadratures, raises for
  every trajectory. No run of beluga.solve returns a trajectory with its quadratures,
  whatever the solver and the steps (C100_never_returned); with `initial_helper` already
  the guess raises (C100_helper). Together with C81 (a guess without quadratures raises in the
  solver) no problem with an unknown parameter gets through beluga.solve with SPBVP.
  Costs at the ends that mention a control raise at the same place: the boundary
  value problem has the control as a state or as a law, the cost function has no
  argument for it, and a run that returns has no trajectory (C100_end_never_returned).

## Assumptions per theorem

Output of `Print Assumptions`, grouped by the set of axioms (all from the standard library).

* No axioms: C01_manual_reaches_targets, C01_names_distinct, C01_unknown_constant, C02_default_case_count_refuted, C03_manual_stops, C03_manual_terminates, C04_warm_start_numpy_flag_refuted, C05_bisection_targets, C06_bounded_failures, C06_first_failure, C07_bisection_ends, C07_bisection_finishes_refuted, C08_bisection_rerun_refuted, C08_manual_rerun, C08_product_rerun_refuted, C09_every_point_once, C09_product_terminates, C100_quadratures, C11_chained, C12_product_all_converged_refuted, C12_product_only_first, C13_add_step_known, C13_add_step_sequence, C13_add_step_unknown, C14_default_index, C14_inverse_reads_time_column, C14_momentum_shift_round_trip, C14_no_costates_raises, C16_round_trip_refuted, C17_differential_control_round_trip, C18_geometric_round_trip_refuted, C18_one_control_loses_last_costate, C18_two_controls_rejected, C19_adjoints_never_removed, C19_adjoints_removed_refuted, C19_squash_round_trip, C20_algebraic_chain, C20_differential_chain, C21_argument_unchanged_refuted, C21_in_place_chain, C21_normalised_chain_preserves_argument, C22_nan_candidate_refuted, C22_no_candidate_raises, C23_automatic_factor_refuted, C23_every_component_scaled, C24_associative, C24_bind_applies_left_first, C24_identity_unit, C24_lshift, C24_negative_power_raises, C24_power_applies_n_times, C24_product, C25_misplaced_epstrig_rejected, C25_one_sided_path_ignored, C25_one_sided_path_refuted, C25_unknown_method_rejected, C26_constraint_stage, C30_activator_refuted, C33_unknown_method_zero_rates, C36_accepts_exactly_antisymmetric, C36_degenerate_accepted_refuted, C36_standard_form_accepted, C37_rejections, C38_constraint_parameter_refuted, C38_failed_constant_refuted, C38_fresh_name_accepted, C38_names_unique, C38_rejection_leaves_problem, C38_replaced_independent_refuted, C38_scale_refuted, C39_plain_names_unaffected, C39_shared_table_refuted, C40_consistent_accepted, C40_copies_always_reported, C40_reported_once, C40_second_check_refuted, C41_acyclic_succeeds, C41_flag_exact, C41_passes_bounded, C42_ignored_quadratures_refuted, C42_pack_unpack, C42_short_vector, C42_unpack_pack, C43_zero_exactly_at_solutions, C44_converged_means_small, C44_step_defined, C44_stops, C45_choose, C49_never_both, C49_pool_refuted, C50_shooting_uses_last_set, C50_spbvp_other_functions, C50_spbvp_refuted, C51_ends, C51_grid, C51_reverse_fails, C51_reverse_refuted, C51_rounding_refuted, C52_nodes, C52_outside, C52_reverse_loses, C52_reverse_refuted, C52_rounding_refuted, C53_grid, C53_rejected, C53_short_orders_refuted, C54_last_abscissa_refuted, C54_mismatch, C54_outside_refuted, C55_expression_refuted, C55_function_name_refuted, C55_identifier, C55_names, C55_repeated_refuted, C55_swapped_refuted, C55_tables, C55_total, C55_wrong_number, C56_constructor_ignores, C56_constructor_refuted, C56_control_empty, C56_created, C56_failed_mode_kept, C56_failed_setup_refuted, C56_no_history, C56_param_ignored, C56_param_refuted, C56_rejected, C56_settings_used, C56_solve_no_parameters, C56_static, C56_static_normalised, C56_static_refuted, C57_matched, C57_short_rows_refuted, C58_exists, C59_crash_points, C59_crash_refuted, C59_not_opened, C59_round_trip, C59_unserialisable_refuted, C60_bad_cpus, C60_every_failure_leaks, C60_exception_refuted, C60_inputs_refuted, C60_normal, C60_sequential, C61_all_converge, C62_reduction_round_trip, C62_varying_constant_refuted, C63_last_declaration_wins, C63_num_cases_after_reset, C63_num_cases_locked_while_running, C64_outside, C64_segment, C64_stored, C68_arity, C68_quick_interior_refuted, C68_quick_refuted, C68_rows, C69_several_fails, C69_several_refuted, C70_spelling_refuted, C72_diffyg, C72_direct, C72_direct_case_refuted, C72_indirect, C72_rejected, C72_same_problem, C73_returns, C73_save_failure_refuted, C73_saved, C73_without_saving, C79_algebraic_rejected, C79_declared_refuted, C79_recorded, C79_symmetries_only, C79_used, C97_default_refuted, C97_label, C97_levels, C97_no_file, C97_progress, C98_empty, C98_empty_refuted, C98_interpolation_refuted, C98_item, C98_iterate, C98_iterate_all, C98_ragged_refuted, C98_slice, C98_wrap, C99_known, C99_law, C99_linear_solver.
* `ClassicalDedekindReals.sig_forall_dec`, `FunctionalExtensionality.functional_extensionality_dep`: C45_root_raises, C46_message, C47_early_stop_refuted, C47_stitched, C48_quadratures_continuous.
* `ClassicalDedekindReals.sig_forall_dec`, `ClassicalDedekindReals.sig_not_dec`, `FunctionalExtensionality.functional_extensionality_dep`: C100_cost, C25_eps_trig_bounds_control, C25_one_sided_terminal_refuted, C25_utm_adds_penalties, C27_increases_with_distance, C27_zero_exactly_in_the_middle, C29_switches_eliminated, C30_quantities_eliminated, C31_energy_balance, C31_hamiltonian_constant, C31_hamiltonian_is_cost_plus_costates_times_dynamics, C32_count, C32_quadratures_refuted, C32_square, C32_without_normalisation_refuted, C33_same_without_parameters, C33_with_parameters_refuted, C33_with_parameters_shifted, C34_explicit_time_refuted, C34_geometric_residual_rate, C34_residual_rate, C34_stationary_everywhere, C37_gradient, C37_one_form, C37_twice_zero, C41_value_unchanged, C45_armijo, C45_constrained, C45_constrained_flag, C45_fsolve_flag, C45_fsolve_refuted, C45_fsolve_solution_rejected_refuted, C45_minimize_bound, C45_minimize_refuted, C45_root_refuted, C46_boundary_refuted, C58_control_law, C58_control_refuted, C58_jacobian, C58_no_parameters_refuted, C58_one_sided_refuted, C65_first_variation_vanishes, C70_direct_refuted, C70_jacobian, C71_bc_jacobian, C71_fun_jacobian, C71_quadrature_always, C71_quadrature_refuted, C74_user_function_refuted, C75_direct, C75_elimination, C75_indirect, C76_declared, C76_zero_reference_refuted, C77_conserved, C77_parameters_rejected, C77_time_refuted, C78_combination_refuted, C78_reduction, C90_stays_inside, C99_jacobian.
* `ClassicalDedekindReals.sig_forall_dec`, `ClassicalDedekindReals.sig_not_dec`, `functional_extensionality_dep`: C66_controls_stationary, C66_hamiltonian_autonomous, C66_hamiltonian_constant, C66_same_trajectories, C67_linear_solver_sound, C86_time_as_state, C86_user_problem.
* `ClassicalDedekindReals.sig_forall_dec`, `ClassicalDedekindReals.sig_not_dec`, `Classical_Prop.classic`, `FunctionalExtensionality.functional_extensionality_dep`: C01_manual_grid, C02_at_least_two, C04_warm_start, C05_bisection_monotone, C05_bisection_schedule, C09_product_ends, C09_product_grid, C100_columns, C100_end_control_refuted, C100_end_cost, C100_end_never_returned, C100_helper, C100_never_returned, C100_parameters, C100_parameters_refuted, C100_run_fails, C10_sparse, C15_eps_trig_round_trip_refuted, C15_recovered_within_bounds, C15_round_trip_halves, C16_normalize_time, C16_round_trip_from_zero, C20_times_without_shift, C22_control_minimises_hamiltonian, C23_scaling_round_trip, C27_unbounded_at_the_limits, C28_exactly_the_admissible_controls, C29_single_condition, C29_switch_limit, C29_two_conditions_refuted, C29_weight_limit, C31_geometric_with_parameters_refuted, C34_geometric_without_shift_refuted, C35_parameter_multipliers_refuted, C35_quadratures_not_scaled, C35_solutions_correspond, C47_arcs_tile, C53_num_diff, C53_one, C53_several, C53_weights, C54_before_first, C54_built, C54_ends, C54_inside, C54_knots, C54_last_fails, C54_smooth, C54_third, C69_first_exact, C69_first_order, C69_second_exact, C69_second_refuted, C70_control_law_refuted, C74_functions, C74_solutions, C74_trajectory, C75_parameter_geometric_refuted, C75_parameter_normalized_refuted, C76_indirect, C80_trajectories, C81_collocation, C81_missing_quadratures_refuted, C82_control_refuted, C82_nodes, C84_functions, C84_no_parameters_refuted, C87_algebraic, C87_curve, C87_differential, C87_geometric, C88_exact, C88_penalty_refuted, C88_reported, C88_time_cost_refuted, C89_maps_back, C89_residuals, C89_returned, C89_targets, C90_mapped, C90_outside_refuted, C90_returned, C91_bounded_control_refuted, C91_first, C91_first_total, C91_mapped, C91_scalar_control_refuted, C91_settings, C91_solve, C91_solve_bounded, C91_stopped_refuted, C94_conditions, C94_matched, C95_same, C95_solve, C96_solve, C99_called, C99_circle_refuted, C99_direct, C99_time_refuted.
* `ClassicalDedekindReals.sig_forall_dec`, `ClassicalDedekindReals.sig_not_dec`, `Classical_Prop.classic`, `functional_extensionality_dep`: C67_control_stationary, C67_least_stationary, C67_no_solution, C83_scaled_collocation, C83_unscaled_collocation, C85_algebraic, C85_differential, C85_geometric, C92_algebraic, C92_collocation, C92_differential, C92_exact, C92_scaled_collocation, C93_first_variation, C93_refuted, C93_stationary.
* `ClassicalDedekindReals.sig_forall_dec`, `ClassicalDedekindReals.sig_not_dec`, `FunctionalExtensionality.functional_extensionality_dep`, `classic`, `constructive_indefinite_description`: C89_duration_positive_refuted.
