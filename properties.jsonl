{"id": "C01", "title": "Affine-expression algebra is sound", "statement": "The value of an affine expression built through the public operators (+, -, *, /, +=, -=, *=, construction from a variable or a constant) equals the same arithmetic applied to the values of its operands, for every assignment of the variables; clean() never changes the value and leaves no variable twice.", "quantifier": "all expressions, all operator sequences, all variable assignments", "why_tests_cant": "a test evaluates finitely many expressions at finitely many points; aliasing, cancellation and repeated variables appear only in some histories", "anchors": ["solver/src/solver/interface/Exprs.cpp: LinExpr::operator+=, -=, *=, clean, isClean", "solver/include/solver/interface/Exprs.hpp"]}
{"id": "C02", "title": "Compiled conic program has exactly the user's linear feasible set", "statement": "After the user has added variables and linear (in)equality constraints, a point is feasible for the compiled standard form {A x = b, G x + s = h, s >= 0} if and only if it satisfies every constraint the user added, and every binary variable lies in [0,1].", "quantifier": "all models, all sequences of addVar/addLinConstr, all points", "why_tests_cant": "feasible-set equality is over a continuum of points and an unbounded family of constraint sequences", "anchors": ["solver/src/solver/interface/ConicProblem.cpp: addLinConstr, buildProblem, setLinConstr"]}
{"id": "C03", "title": "Second-order-cone constraints compile exactly", "statement": "A constraint sum_i L_i(x)^2 <= R(x)^2, R(x) >= 0 added by addSocConstr holds at x if and only if the corresponding block of h - G x lies in the second-order cone.", "quantifier": "all SOC constraints and points", "why_tests_cant": "continuum of points", "anchors": ["solver/src/solver/interface/ConicProblem.cpp: addSocConstr, buildProblem", "solver/include/solver/interface/Exprs.hpp: DCPQuadExpr"]}
{"id": "C04", "title": "Quadratic constraints and objectives are represented exactly by their epigraph cones", "statement": "For every quadratic term coeff*L(x)^2 with coeff>=0 in an objective or constraint, the auxiliary variable t and cone block (1+t, t-1, 2 L) added by the compiler are feasible exactly when t >= L(x)^2, and t enters the linear row or cost with weight coeff; hence minimising the compiled linear objective over the auxiliary variables gives the user's quadratic objective, and a quadratic constraint is satisfiable in the auxiliaries exactly when the user's inequality holds.", "quantifier": "all quadratic expressions and points", "why_tests_cant": "continuum; exactness in both directions can not be sampled", "anchors": ["solver/src/solver/interface/ConicProblem.cpp: addQuaConstr, setObjective, buildProblem"]}
{"id": "C05", "title": "Declared bounds of variables are enforced", "statement": "A variable declared with lower bound lb and upper bound ub takes, in every feasible point of the compiled problem, a value within [lb, ub].", "quantifier": "all variables, all bounds, all feasible points", "why_tests_cant": "requires reasoning over every feasible point", "anchors": ["solver/src/solver/interface/ConicProblem.cpp: addVar, buildProblem", "solver/include/solver/interface/Var.hpp"]}
{"id": "C06", "title": "Dimensions of the compiled problem are consistent", "statement": "For every sequence of modelling calls the compiled matrices have exactly one row per cone coordinate (linear rows, then cone blocks, no overlap, no gap), every written row index is in range, and the number of columns equals the number of variables including auxiliaries.", "quantifier": "all modelling histories", "why_tests_cant": "an off-by-one appears only for particular mixes of constraint kinds", "anchors": ["solver/src/solver/interface/ConicProblem.cpp: buildProblem, initializeProblem", "solver/src/solver/interface/Cone.cpp: setupLpcone, setupSocone"]}
{"id": "C07", "title": "Optimisation-variable index map is a bijection", "statement": "The planner's variable blocks occupy pairwise disjoint consecutive index ranges, and id(row,col) with row,col in range is injective and covers exactly the block; out-of-range row/col requests are clamped to the block and so never read another block.", "quantifier": "all block shapes, all (row,col), all histories of variable registration", "why_tests_cant": "unbounded shapes; a collision needs a particular pair", "anchors": ["solver/src/solver/interface/OptVar.cpp: OptVar::id, ExprVec", "momentumopt/src/momentumopt/dynopt/DynamicsOptimizer.cpp: addVariableToModel"]}
{"id": "C08", "title": "Reading a solution back puts every value in the cell it was requested for", "statement": "After a solve, saving a block returns a matrix whose (r,c) entry is the solution value of the model variable created for (r,c) of that block, for all blocks and all solver outputs.", "quantifier": "all blocks, all solver outputs", "why_tests_cant": "index arithmetic over unbounded shapes", "anchors": ["momentumopt/src/momentumopt/dynopt/DynamicsOptimizer.cpp: saveSolution, addVariableToModel", "momentumopt/src/momentumopt/kinopt/KinematicsOptimizer.cpp: saveSolution"]}
{"id": "C09", "title": "Equilibration is an equivalence and is undone exactly", "statement": "Scaling the problem data and then unscaling returns the original data; a point is feasible (optimal) for the scaled problem iff its unscaled image is feasible (optimal) for the original; all rows of one second-order cone receive the same factor so cone membership is preserved.", "quantifier": "all problem data, all positive scalings, all points", "why_tests_cant": "continuum of data", "anchors": ["solver/src/solver/optimizer/EqRoutine.cpp: setEquilibration, unsetEquilibration, scaleVariables"]}
{"id": "C10", "title": "Jordan product and division of cone vectors are inverse", "statement": "For every u with nonzero cone determinant, conicDivision(u, conicProduct(u,v)) = v and conicProduct(u, conicDivision(u,w)) = w, for the linear part and every second-order block.", "quantifier": "all cone layouts and vectors", "why_tests_cant": "continuum", "anchors": ["solver/src/solver/interface/Cone.cpp: conicProduct, conicDivision"]}
{"id": "C11", "title": "Projection used for starting points lands strictly inside the cone", "statement": "The projection of any vector used to initialise slacks and multipliers lies in the interior of the cone, and differs from the vector by a move along the cone identity that exceeds the smallest feasible move by exactly one.", "quantifier": "all vectors and layouts", "why_tests_cant": "continuum", "anchors": ["solver/src/solver/interface/Cone.cpp: conicProjection"]}
{"id": "C12", "title": "Nesterov-Todd scaling maps z and s to the same scaled point", "statement": "For every strictly interior pair (s,z) the scaling computed by the solver satisfies W z = W^{-1} s = lambda (and W^{-1} is the inverse of W).", "quantifier": "all interior pairs, all cone sizes", "why_tests_cant": "continuum; algebraic identity in square roots", "anchors": ["solver/src/solver/interface/Cone.cpp: updateNTScalings, conicNTScaling"]}
{"id": "C13", "title": "Permutations used by the factorisation are undone", "statement": "permute followed by unpermute (and conversely) is the identity for every permutation and vector, so the solution of the permuted system is returned in the user's order.", "quantifier": "all permutations, all vectors", "why_tests_cant": "n! permutations", "anchors": ["solver/src/solver/optimizer/LinSolver.cpp: initialize, permuteSparseMatrix", "solver/include/solver/optimizer/LinSolver.hpp"]}
{"id": "C14", "title": "Interior-point loop terminates with a justified exit code", "statement": "The interior-point loop performs at most the configured number of iterations for every behaviour of the linear algebra; exit code Optimal is returned only when the measured residuals and gap at the returned iterate satisfy the configured tolerances, and Inaccurate codes only when the relaxed ones do.", "quantifier": "all problem data, all numerical behaviours of the inner solver", "why_tests_cant": "depends on unbounded numerical histories", "anchors": ["solver/src/solver/optimizer/IPSolver.cpp: optimize, convergenceCheck"]}
{"id": "C15", "title": "Interior-point steps keep slacks and multipliers in the cone", "statement": "The step length returned by the line search times any direction keeps s and z in the (interior of the) cone.", "quantifier": "all interior points, all directions", "why_tests_cant": "continuum", "anchors": ["solver/src/solver/optimizer/IPSolver.cpp: lineSearch"]}
{"id": "C16", "title": "Sparse LDL' factorisation and solve are correct", "statement": "When the factorisation succeeds, L D L' equals the (dynamically regularised) input matrix and the forward/diagonal/backward solves return the solution of the factored system.", "quantifier": "all matrices and right hand sides", "why_tests_cant": "continuum, all sizes", "anchors": ["solver/src/solver/optimizer/SparseCholesky.cpp: factorize, solve"]}
{"id": "C17", "title": "Iterative refinement never returns a worse solution", "statement": "The direction returned by the refined linear solve has a residual not larger than the residual before the last accepted correction; the number of refinement steps is bounded by the setting.", "quantifier": "all systems and residual behaviours", "why_tests_cant": "depends on numerical histories", "anchors": ["solver/src/solver/optimizer/LinSolver.cpp: solve"]}
{"id": "C18", "title": "Branch and bound returns the best binary-feasible leaf", "statement": "When branch and bound reports Optimal, the returned vector has the binaries integral and no other binary assignment has a better relaxation value; the incumbent is never forgotten.", "quantifier": "all trees and all relaxation oracles", "why_tests_cant": "tree shapes depend on solver outputs", "anchors": ["solver/src/solver/optimizer/BnBSolver.cpp: optimize"]}
{"id": "C19", "title": "Branch and bound explores a partition of the binary assignments within the iteration limit", "statement": "Branching on a node splits its set of binary assignments into two disjoint sets whose union is the node's set; leaf sets always cover the root set except for discarded nodes; the loop makes at most the configured number of iterations.", "quantifier": "all branching orders", "why_tests_cant": "exponentially many histories", "anchors": ["solver/src/solver/optimizer/BnBSolver.cpp: optimize, getNodeFor"]}
{"id": "C20", "title": "L-BFGS line search success implies sufficient decrease", "statement": "If the backtracking line search reports success the returned step satisfies the configured condition (Armijo / Wolfe / strong Wolfe) within the maximum number of evaluations, and the point returned is x + step*d with the returned value and gradient belonging to it.", "quantifier": "all objective functions, points, directions", "why_tests_cant": "quantifies over all functions", "anchors": ["solver/src/solver/optimizer/LbfgsSolver.cpp: line_search_backtracking"]}
{"id": "C21", "title": "L-BFGS returns the value of the point it returns", "statement": "After optimize() the reported optimal value equals the objective evaluated at the reported optimal vector, the sequence of accepted values is monotone, success means the gradient norm test holds, and iteration limits are respected.", "quantifier": "all functions, all parameter values, all line search outcomes", "why_tests_cant": "depends on failing line searches deep in a run", "anchors": ["solver/src/solver/optimizer/LbfgsSolver.cpp: lbfgs, optimize"]}
{"id": "C22", "title": "L-BFGS search direction is a descent direction", "statement": "If every stored correction pair has positive curvature, the direction computed by the two-loop recursion has negative inner product with every non-zero gradient.", "quantifier": "all memories and gradients", "why_tests_cant": "continuum", "anchors": ["solver/src/solver/optimizer/LbfgsSolver.cpp: lbfgs two-loop recursion"]}
{"id": "C23", "title": "LQR iterations never increase the cost", "statement": "Every accepted iterate of the LQR/DDP solver has strictly smaller cost than the previous; if no step is accepted the trajectory is left unchanged; the number of iterations is bounded by the setting.", "quantifier": "all problems (dynamics, objective oracles), all settings", "why_tests_cant": "quantifies over all dynamics and objectives", "anchors": ["solver_lqr/src/solver_lqr/SolverLqr.cpp: optimize", "solver_lqr/src/solver_lqr/ForwardPass.cpp"]}
{"id": "C24", "title": "LQR trajectory is consistent with its controls and limits", "statement": "After every forward pass, the stored state sequence starts at the initial state and each next state is the dynamics applied to the previous state and the stored control; with limits on, every stored control is inside the limits; the stored cost is the sum of the stage costs along the stored trajectory.", "quantifier": "all dynamics, controls, horizons", "why_tests_cant": "unbounded horizons, all functions", "anchors": ["solver_lqr/src/solver_lqr/ForwardPass.cpp: run", "solver_lqr/src/solver_lqr/OcpDescription.cpp"]}
{"id": "C25", "title": "LQR backward pass is optimal for linear-quadratic problems", "statement": "For linear dynamics and (convex) quadratic costs the feedback law computed by the backward pass minimises the cost-to-go from every state, and the value function stored is that minimum.", "quantifier": "all LQ problems, horizons, states", "why_tests_cant": "continuum of matrices", "anchors": ["solver_lqr/src/solver_lqr/BackwardPass.cpp: run, solver_lqr/src/solver_lqr/BackwardPass.cpp"]}
{"id": "C26", "title": "Finite-difference derivatives are exact on the functions the solver assumes", "statement": "Central differences with the configured step reproduce gradient and Hessian exactly for quadratic objectives and Jacobians exactly for affine dynamics, for every evaluation point and every nonzero step, and the state/control arguments are restored.", "quantifier": "all quadratics, points, steps", "why_tests_cant": "continuum", "anchors": ["solver_lqr/src/solver_lqr/FiniteDifferences.cpp"]}
{"id": "C27", "title": "Asynchronous null-space thread handshake is safe and live", "statement": "In every interleaving of the HQP main thread and the SVD thread the main thread reads null-space results only when the job it posted has been completed, the worker never works on data being modified, no wakeup is lost (no reachable deadlock while running), and stop makes the worker terminate.", "quantifier": "all interleavings and all lengths of task hierarchies", "why_tests_cant": "schedules can not be enumerated by tests", "anchors": ["solver/include/solver/rt_optimizer/RtHQPSolver.h: doSVDComputations, initialize, solveNextTask", "solver/include/solver/rt_optimizer/RtMutex.hpp"]}
{"id": "C28", "title": "Lower-priority tasks never disturb higher-priority equality tasks", "statement": "Solving a lower-priority task moves the solution only within the null space of all higher-priority equality tasks, so their residuals are unchanged, for every hierarchy length.", "quantifier": "all hierarchies and task matrices", "why_tests_cant": "continuum, unbounded number of ranks", "anchors": ["solver/include/solver/rt_optimizer/RtHQPSolver.h: solveNextTask", "solver/include/solver/rt_optimizer/RtModel.h: solve"]}
{"id": "C29", "title": "Real-time model reduces and re-expands the decision vector faithfully", "statement": "Reducing the columns of a cost to the active variables keeps exactly the columns of the active variables in order, so the reduced residual at the reduced solution equals the full residual at the expanded solution with inactive variables at zero; inequality slack is the norm of the positive part.", "quantifier": "all masks, matrices", "why_tests_cant": "2^n masks", "anchors": ["solver/include/solver/rt_optimizer/RtModel.h: reduceColumns, appendRowsOfRank, inequalitySlack"]}
{"id": "C30", "title": "Contact schedule is sampled onto the time grid exactly", "statement": "After filling a dynamics sequence, an end-effector is active at grid step k exactly when k+1 time steps lies in [activation, deactivation) of one of its contacts, and the contact associated to that step is that contact.", "quantifier": "all contact plans, horizons, time steps", "why_tests_cant": "boundary times and unbounded plans", "anchors": ["momentumopt/src/momentumopt/cntopt/ContactPlanInterface.cpp: fillDynamicsSequence"]}
{"id": "C31", "title": "Active force variables are numbered contiguously", "statement": "For non-overlapping contacts, the numbers given to the active steps of an end-effector are 0,1,2,... in time order without gap or repetition and the stored total is their count.", "quantifier": "all plans", "why_tests_cant": "unbounded", "anchors": ["momentumopt/src/momentumopt/cntopt/ContactPlanInterface.cpp: fillDynamicsSequence", "momentumopt/include/momentumopt/dynopt/DynamicsState.hpp"]}
{"id": "C32", "title": "Planned momenta and centre of mass obey the Newton-Euler dynamics", "statement": "In every feasible solution of the momentum optimisation problem (fixed time), com and linear momentum satisfy the discretised Newton equations with the sum of the active contact forces, gravity and the external force, at every time step; the stored plan's angular momentum is the integral of the contact torques of the stored forces.", "quantifier": "all horizons, contact plans, solver outputs", "why_tests_cant": "unbounded horizons, continuum", "anchors": ["momentumopt/src/momentumopt/dynopt/DynamicsOptimizer.cpp: internalOptimize, storeSolution"]}
{"id": "C33", "title": "Convex decomposition of the angular momentum rate is exact when its cones are tight", "statement": "With the auxiliary quadratic constraints tight the difference of the two convex parts equals the cross product lever-arm x force componentwise; in general the error is bounded by the constraint slack.", "quantifier": "all lever arms and forces", "why_tests_cant": "continuum", "anchors": ["momentumopt/src/momentumopt/dynopt/DynamicsOptimizer.cpp: internalOptimize (quadratic constraints)"]}
{"id": "C34", "title": "Friction constraints relate to Coulomb friction as documented", "statement": "The polyhedral friction constraint accepts every force inside the Coulomb cone of the surface and no force outside the cone with coefficient sqrt(2) mu; the second-order variant is exactly the Coulomb cone.", "quantifier": "all forces, rotations, friction coefficients", "why_tests_cant": "continuum", "anchors": ["momentumopt/include/momentumopt/dynopt/DynamicsOptimizer.hpp: FrictionCone", "momentumopt/src/momentumopt/dynopt/DynamicsOptimizer.cpp"]}
{"id": "C35", "title": "Storing a plan writes exactly the planned values inside the sequence", "statement": "storeSolution writes the solution column t into dynamics state t for every t and touches no other memory.", "quantifier": "all horizons", "why_tests_cant": "memory safety at every horizon", "anchors": ["momentumopt/src/momentumopt/dynopt/DynamicsOptimizer.cpp: storeSolution"]}
{"id": "C36", "title": "Terrain regions are the convex hull of their vertices", "statement": "For counter-clockwise convex vertices the half-space description built for a terrain region contains every vertex (hence the hull), the normal is a unit vector orthogonal to the surface, and the rotation is orthonormal.", "quantifier": "all vertex lists", "why_tests_cant": "continuum", "anchors": ["momentumopt/src/momentumopt/cntopt/TerrainDescription.cpp: TerrainRegion"]}
{"id": "C37", "title": "Orientation utilities satisfy quaternion calculus identities", "statement": "The exponential map returns a unit quaternion, log inverts exp outside the small angle branch, the skew matrix times v is the cross product, quaternion matrices reproduce the quaternion product.", "quantifier": "all rotation vectors and quaternions", "why_tests_cant": "continuum", "anchors": ["momentumopt/src/momentumopt/utilities/OrientationUtils.cpp"]}
{"id": "C38", "title": "Trajectory generators interpolate their way-points", "statement": "A trajectory fitted to position/velocity/acceleration way-points takes exactly these values at their times whenever the linear solve is exact, and query times are clamped to the time span.", "quantifier": "all way-points and times", "why_tests_cant": "continuum", "anchors": ["momentumopt/src/momentumopt/utilities/TrajectoryGenerator.cpp"]}
{"id": "C39", "title": "Minimum-jerk polynomials satisfy their boundary conditions", "statement": "The swing polynomial meets start, end and via position and zero boundary velocity and acceleration conditions for all distinct start and end times; its derivative is the mathematical derivative; evaluation of a list of polynomials uses the polynomial of the right window.", "quantifier": "all times and positions", "why_tests_cant": "continuum; conditioning on t0<>t1", "anchors": ["momentumopt/python/momentumopt/kinoptpy/min_jerk_traj.py"]}
{"id": "C40", "title": "Contact phases are recovered from the dynamics plan", "statement": "The contact plan extracted from the dynamics optimiser lists, for every end-effector, exactly the maximal intervals on which it is active.", "quantifier": "all activation patterns", "why_tests_cant": "2^N patterns", "anchors": ["momentumopt/python/momentumopt/kinoptpy/momentum_kinematics_optimizer.py: get_contact_plan_from_dyn_optimizer"]}
{"id": "C41", "title": "QP wrapper solves the QP it is given", "statement": "The arguments passed to the dual solver describe the same feasible set and objective as min 1/2 x'Px + q'x, Gx <= h, Ax = b.", "quantifier": "all QPs", "why_tests_cant": "continuum", "anchors": ["momentumopt/python/momentumopt/kinoptpy/qp.py"]}
{"id": "C42", "title": "Solver settings round-trip", "statement": "Setting a parameter and reading it back returns the value; setting one parameter changes no other; reading or writing an unknown parameter is rejected.", "quantifier": "all parameters, values, histories", "why_tests_cant": "all pairs of parameters and histories", "anchors": ["solver/src/solver/interface/SolverSetting.cpp: get, set", "solver/include/solver/interface/SolverParams.hpp"]}
{"id": "C43", "title": "Feedback model reproduces the plan's dynamics", "statement": "One step of the feedback model's dynamics adds to momentum and com the Newton-Euler increments with the active effectors' forces; rolling it out from the planned initial state with the planned controls reproduces the planned linear momentum and com.", "quantifier": "all plans, horizons", "why_tests_cant": "unbounded horizons", "anchors": ["momentumopt/src/momentumopt/dynopt/DynamicsFeedback.cpp: dynamics, setStatesAndControls"]}
{"id": "C44", "title": "Kinematic trajectory problem integrates joint velocities", "statement": "In every feasible solution of the kinematic trajectory problem, joint positions are initial posture plus the accumulated steps and respect joint limits.", "quantifier": "all horizons, solver outputs", "why_tests_cant": "unbounded horizons", "anchors": ["momentumopt/src/momentumopt/kinopt/KinematicsOptimizer.cpp: optimizeTrajectory"]}
{"id": "C45", "title": "Time-optimal linearisation is the first-order model", "statement": "The linearised product of time step and force/velocity used for time optimisation agrees with the product and its gradient at the linearisation point for all values.", "quantifier": "all points", "why_tests_cant": "continuum", "anchors": ["momentumopt/src/momentumopt/dynopt/DynamicsOptimizer.cpp: internalOptimize (TimeOpt)"]}
{"id": "C46", "title": "Runge-Kutta integration is exact on polynomials of low degree", "statement": "One step of the generic integrator reproduces the exact increment for dynamics polynomial in time of degree at most 3 and its weights sum to one step.", "quantifier": "all coefficients, step sizes", "why_tests_cant": "continuum", "anchors": ["solver_lqr/src/solver_lqr/OcpDescription.cpp: internal_dynamics"]}
{"id": "C47", "title": "Planner derived settings are consistent", "statement": "The number of time steps is the floor of horizon over time step, derived quantities (weight, gravity vector, extended active dofs) are functions of the loaded ones, and every getter returns the field of its enumerator or rejects it.", "quantifier": "all settings", "why_tests_cant": "all parameters", "anchors": ["momentumopt/src/momentumopt/setting/PlannerSetting.cpp"]}
{"id": "C48", "title": "Real-time affine/quadratic cost builders have the documented value", "statement": "Adding a squared norm of an affine residual to a quadratic cost adds exactly that function; substitution of an affine map of variables yields the composed function.", "quantifier": "all matrices and points", "why_tests_cant": "continuum", "anchors": ["solver/include/solver/rt_optimizer/RtMatrix.hpp: RtAffineUtils, RtQuadraticUtils"]}
{"id": "C49", "title": "Givens rotations of the real-time QP keep the factor orthogonal", "statement": "Each rotation applied when adding or removing an active constraint is orthogonal and zeroes the intended entry, for all inputs.", "quantifier": "all inputs", "why_tests_cant": "continuum", "anchors": ["solver/include/solver/rt_optimizer/RtQPSolver.hpp"]}
{"id": "C50", "title": "A modelling call that is rejected leaves the model unchanged", "statement": "If addVar/addLinConstr/addQuaConstr/addSocConstr/setObjective throws, a later optimise behaves as if the call had not been made.", "quantifier": "all histories with rejected calls", "why_tests_cant": "histories with errors", "anchors": ["solver/src/solver/interface/ConicProblem.cpp: addQuaConstr, addSocConstr, addLinConstr"]}
{"id": "C51", "title": "Re-setting the objective replaces the previous one", "statement": "Calling setObjective again makes optimise minimise the new objective only.", "quantifier": "all histories", "why_tests_cant": "histories", "anchors": ["solver/src/solver/interface/ConicProblem.cpp: setObjective, buildProblem"]}
{"id": "C52", "title": "Penalty objective and numerical gradient of the NLP wrapper", "statement": "The function handed to L-BFGS is the objective plus weight times the squared constraint violation; it equals the objective exactly on feasible points, is never smaller, and the gradient approximation leaves the evaluation point unchanged.", "quantifier": "all problems and points", "why_tests_cant": "continuum", "anchors": ["solver/src/solver/optimizer/LbfgsSolver.cpp: evaluate, evaluate_objective_function"]}
{"id": "C53", "title": "The factorised matrix is the regularised KKT matrix of the problem", "statement": "After building, permuting and any number of in-place scaling updates, the stored sparse matrix, read back in the user's order, is the regularised KKT matrix of the problem with the scalings of the last update: every scaling value is written to its own entry, nothing else changes.", "quantifier": "all problem sizes, cone layouts, permutations, update histories", "why_tests_cant": "the position map composes index arithmetic over blocks with a counting sort; an off-by-one shows only for particular layouts and permutations", "anchors": ["solver/src/solver/optimizer/LinSolver.cpp: buildProblem, findPermutation, initialize, initializeMatrix, updateMatrix"]}
{"id": "C54", "title": "Each accepted step reduces the residuals exactly as predicted", "statement": "With exact linear solves, an accepted combined step of length a with centring sigma changes the primal, dual and gap residuals of the homogeneous embedding by the factor 1 - a(1 - sigma) and keeps the iterate inside the cone, so along a run the residuals are the product of these factors times the initial ones.", "quantifier": "all problems, iterates in the cone, numbers of iterations", "why_tests_cant": "continuum and unbounded runs", "anchors": ["solver/src/solver/optimizer/IPSolver.cpp: rhsCombinedStep, optimize"]}
{"id": "C55", "title": "The real-time QP answer is optimal, its infeasibility verdict correct", "statement": "When RtQPSolver::optimize reports success the point satisfies the equalities, violates the inequalities by at most the exit tolerance, the returned number is its objective value, and no feasible point is better; when it reports failure no feasible point exists.", "quantifier": "all strictly convex problems, all run lengths", "why_tests_cant": "continuum of problems; the active-set history is unbounded", "anchors": ["solver/include/solver/rt_optimizer/RtQPSolver.hpp: solveQP, optimize, isOptimized"]}
{"id": "C56", "title": "The real-time QP solver terminates and stays inside its storage", "statement": "RtQPSolver::optimize returns after finitely many active-set changes and never accesses an element outside its vectors, for every strictly convex problem.", "quantifier": "all strictly convex problems, all run lengths", "why_tests_cant": "termination needs an argument over all active-set histories", "anchors": ["solver/include/solver/rt_optimizer/RtQPSolver.hpp: solveQP, addConstraint, deleteConstraint"]}
{"id": "C57", "title": "One inverse-kinematics step minimises the weighted task errors", "statement": "The joint velocity returned minimises the weighted squared errors of momentum, end-effector velocity and posture (plus a 1e-6 regularisation); in a flight phase it does so among the velocities that produce exactly the given momentum; the answer depends only on the arguments and settings, not on earlier calls.", "quantifier": "all robots, weights, gains, references, call histories", "why_tests_cant": "continuum and histories: the object caches kinematics and overwrites its arrays in place", "anchors": ["momentumopt/python/momentumopt/kinoptpy/inverse_kinematics.py: PointContactInverseKinematics.compute"]}
{"id": "C58", "title": "Stored joint motion is the optimised plan", "statement": "After each trajectory iteration the stored joint positions, velocities and accelerations of every step are those of the solver's plan, hence respect the joint limits and are backward differences of one another; a failed solve leaves the stored motion unchanged.", "quantifier": "all robots, horizons, solver outputs, numbers of iterations, lists of active joints", "why_tests_cant": "unbounded horizons and iteration histories; the storing code integrates step by step and overwrites the states it reads", "anchors": ["momentumopt/src/momentumopt/kinopt/KinematicsOptimizer.cpp: optimizeTrajectory"]}
{"id": "C59", "title": "Posture optimisation solves the posture problem and tracks the desired state", "statement": "Every accepted posture satisfies the joint limits and the softened contact rows; an optimum minimises the tracking cost of center of mass, end-effectors and momenta; the initial state is at rest with the desired momenta; a state already at the target is returned without a solve.", "quantifier": "all robots, states, references, solver outputs", "why_tests_cant": "continuum of states and references", "anchors": ["momentumopt/src/momentumopt/kinopt/KinematicsOptimizer.cpp: optimizePosture"]}
{"id": "C60", "title": "Flight phases connect the contacts of every end-effector", "statement": "With kinematics loading on, flights of two steps or more and a viapoint for each flight: every gap between contacts (and before the first, after the last contact) becomes a motion that leaves the old pose at rest, follows the rest-to-rest profile over its viapoint and arrives at the next pose at rest; velocity and acceleration references are the derivatives of the position; orientations turn along the shorter arc during the first half and are unit; references of steps in contact, of other end-effectors, forces and momenta are unchanged.", "quantifier": "all contact plans of all end-effectors, horizons, step durations, viapoints", "why_tests_cant": "the searches for the contact changes run over unbounded sequences and each flight starts where the search of the previous one ended", "anchors": ["momentumopt/src/momentumopt/cntopt/ContactPlanInterface.cpp: updateEndeffectorTrajectories, findMakeContactId, findBreakContactId, findActiveViapoints, generateFlightPhase"]}
{"id": "C61", "title": "The whole-body motion follows from one inverse-kinematics step per time step", "statement": "The recorded motion starts at the initial configuration; each velocity minimises the weighted task errors for the planned references of its step (posture pulled to the regularisation trajectory, base to the desired orientation) and the next configuration is its integral; during a flight the velocities keep the horizontal and angular momentum of the last contact exactly and lose weight*dt of vertical momentum per step; the recorded configuration, velocity, center of mass, momentum and end-effector positions belong together; with consistent inputs it never fails. The initial configuration is the end of a chain of such steps from the default posture that stops at the first step shorter than 1e-3 or after max_iterations.", "quantifier": "all robots, contact plans, horizons, references, histories of the solver object", "why_tests_cant": "each step depends on the previous ones through the object's caches, through a momentum remembered since the last contact and through an array updated in place", "anchors": ["momentumopt/python/momentumopt/kinoptpy/momentum_kinematics_optimizer.py: MomentumKinematicsOptimizer.optimize, optimize_initial_position, fill_kinematic_result"]}
{"id": "C62", "title": "Regularisation trajectories pass through their via points", "statement": "For via points with increasing positive times the regularisation trajectory of every coordinate starts at the initial value, passes through each via point at its time, stays between neighbouring via values, is the minimum-jerk profile in between, and returns to the initial value at the end; without via points it is constant.", "quantifier": "all numbers of coordinates, via points, horizons and durations", "why_tests_cant": "the pieces are looked up in a list by time windows; which one answers at a boundary depends on all of them", "anchors": ["momentumopt/python/momentumopt/kinoptpy/momentum_kinematics_optimizer.py: TrajectoryInterpolator"]}
{"id": "C63", "title": "Second-order inverse kinematics returns the best joint accelerations and integrates them", "statement": "Without priorities a step returns the unique joint acceleration minimising the weighted squared errors of momentum rate, end-effector accelerations and joint posture (with their feed-forward, feedback gains and drift terms) plus the regularisation, whatever the object was used for before; it succeeds for non-negative weights and references of the right shapes. The motion is the semi-implicit integration of such accelerations with 1 ms; the recorded row j is the state after j*floor(1000 dt) steps with center of mass, momentum, end-effector positions and velocities of that state.", "quantifier": "all robots, weights, gains, references, horizons, time steps, histories of the object", "why_tests_cant": "the arrays of the object are overwritten in place and every step depends on all previous ones", "anchors": ["momentumopt/python/momentumopt/kinoptpy/second_order_ik.py: SecondOrderInverseKinematics.step, solve", "momentumopt/python/momentumopt/kinoptpy/momentum_kinematics_optimizer.py: optimize (second order branch)"]}
{"id": "C64", "title": "With priorities the end-effectors come first and the momentum second", "statement": "With use_hierarchy and four end-effectors the returned acceleration minimises the squared error of the end-effector accelerations, and among all such accelerations the squared error of the momentum rate.", "quantifier": "all robots with four end-effectors, configurations, references, gains, histories", "why_tests_cant": "an optimum over all accelerations at two levels cannot be tested exhaustively", "anchors": ["momentumopt/python/momentumopt/kinoptpy/second_order_ik.py: SecondOrderInverseKinematics.step"]}
{"id": "C65", "title": "Sequential convex programming closes trust-region constraints to the threshold", "statement": "After a solve with at least one iteration allowed whose last programme is reported optimal, every constraint entered holds at the values of the variables, and every quadratic constraint entered with a trust region holds as an equality up to threshold^(1+refinements), whatever the points of linearisation were.", "quantifier": "all models built from modelling calls, guesses, settings, solvers whose optimal answers are feasible", "why_tests_cant": "unbounded models and refinement histories: each programme is linearised at the answer of the previous one", "anchors": ["solver/src/solver/interface/ConicProblem.cpp: optimize, solveProblem, buildProblem"]}
{"id": "C66", "title": "Refinements of soft constraints never make the solution worse", "statement": "With soft constraints and no trust regions, the objective plus weighted squared slack of the soft constraints does not increase from the warm start to the solution nor from one number of refinements to a larger one, as long as the solves are optimal.", "quantifier": "all models, guesses, numbers of refinements, exact solvers", "why_tests_cant": "a descent statement over unbounded refinement histories", "anchors": ["solver/src/solver/interface/ConicProblem.cpp: optimize, solveProblem, buildProblem"]}
{"id": "C67", "title": "A model is solved by the right solver the right number of times", "statement": "Models without approximated constraints are solved once, by branch and bound if they have binary variables; models with approximated constraints once per warm start, main solve and refinement; models with both go to the search over non-convex relaxations; with nothing to do the values stay and the code is indeterminate.", "quantifier": "all models, settings, solvers", "why_tests_cant": "unbounded models; the counters that decide are updated by every call and recomputed by every compilation", "anchors": ["solver/src/solver/interface/Model.cpp: optimize", "solver/src/solver/interface/ConicProblem.cpp: optimize, solveProblem"]}
{"id": "C68", "title": "The momentum programme minimises the planner's cost over all feasible plans", "statement": "The convex programme the momentum planner builds has as optima exactly the plans that satisfy the planner's equations and cost no more than any other such plan, the cost being via points, goal and references of center of mass and momenta (last step apart), momentum rates, contact forces and their changes from and to the neighbouring steps, normal torques, and with time optimisation step durations and, after the first pass, the distance of the bounds from their model at the previous plan. Every feasible plan is a feasible point of the programme.", "quantifier": "all horizons, contact sequences, settings with non-negative weights, references, via points", "why_tests_cant": "an optimum over all plans of unbounded horizon and contact sequence cannot be tested exhaustively", "anchors": ["momentumopt/src/momentumopt/dynopt/DynamicsOptimizer.cpp: internalOptimize, addCenterOfMassViapoints", "solver/src/solver/interface/ConicProblem.cpp: buildProblem"]}
{"id": "C69", "title": "The heuristics of the momentum planner deliver what they promise", "statement": "With trust regions a plan reported optimal satisfies all equations and its angular momentum is the time integral of the true contact torques up to weight/4*threshold^(1+refinements) per contact and second; with soft constraints the cost plus weighted squared slack does not increase with more refinements; with time optimisation, and for the warm start of the others, the plan is a cheapest one.", "quantifier": "all horizons, contact sequences, settings, solver settings, exact solvers", "why_tests_cant": "relates unbounded refinement histories to an exact physical law of every plan", "anchors": ["momentumopt/src/momentumopt/dynopt/DynamicsOptimizer.cpp: internalOptimize", "solver/src/solver/interface/ConicProblem.cpp: optimize, solveProblem, buildProblem"]}
{"id": "C70", "title": "Mixed-integer problems with approximated constraints: the search answers the problem that was posed", "statement": "Optimising a problem with binary variables and trust-region or soft constraints terminates within the iteration limit for every numerical solver whose optimal answers are feasible; its nodes cover all 0/1 assignments at every pass; and an answer coded optimal or optimal-inaccurate satisfies every constraint posed, the trust-region ones as equalities up to threshold^(1+refinements), with every binary in [0,1] and within the integrality tolerance of 0 or 1, whatever values the variables had before.", "quantifier": "all problems with binaries and approximations, settings, previous contents of the search tree, values of the variables, sound solvers", "why_tests_cant": "every node is a sequence of convex programmes that starts where the previous node stopped: unbounded histories", "anchors": ["solver/src/solver/optimizer/NcvxBnBSolver.cpp: optimize, initialize, updateNodeBounds, updateProblemData", "solver/src/solver/interface/Model.cpp: optimize"]}
{"id": "C71", "title": "A plan is replayed along the piecewise linear curve through its states", "statement": "The functions returned by desired_state and interpolate give, at every time and for every quantity they know, the value of the piecewise linear curve through the plan's states at their time stamps, constant before the first and after the last; so states are reproduced at their stamps and values stay within the planned range. (Claimed also: interpolated orientations are orientations.)", "quantifier": "all plans, quantities, increasing time vectors, real times", "why_tests_cant": "the nearest-neighbour lookup must be right for every real time and every spacing of the stamps", "anchors": ["momentumopt/python/momentumopt/motion_execution.py: desired_state, interpolate"]}
{"id": "C72", "title": "The time vector of a plan matches the planned motion", "statement": "create_time_vector starts at zero and leaves the i-th time step between states i and i+1, so that the replayed centre of mass moves with the planned momentum.", "quantifier": "all plans, fixed and optimised time steps", "why_tests_cant": "relates real-valued time steps of unbounded plans to the planner's integration rule", "anchors": ["momentumopt/python/momentumopt/motion_planner.py: create_time_vector", "momentumopt/python/momentumopt/motion_execution.py: interpolate"]}
{"id": "C73", "title": "Executing a motion respects the torque limits and applies the planned forces in time", "statement": "Every commanded torque lies within the limits and equals the control law where that does; at every control tick the contact forces of the state in force at that time are applied, until the plan ends; the velocity of the momentum feedback is the configuration difference per control period.", "quantifier": "all gains, errors, forces, plans and numbers of control ticks", "why_tests_cant": "unbounded loop with an index that advances with time; the history of time stamps is overwritten while it is read", "anchors": ["momentumopt/python/momentumopt/motion_execution.py: MotionExecutor.execute_motion, limit_torques, calculate_actual_trajectories"]}
{"id": "C74", "title": "create_file writes every trajectory sampled once per millisecond", "statement": "create_file writes nine files; each has one row per millisecond of the plan (to the nearest), row i being i and the interpolated quantity at i milliseconds, forces multiplied by the weight; other files are not touched.", "quantifier": "all quadruped plans longer than half a millisecond", "why_tests_cant": "unbounded plans and real time stamps; each row depends on the interpolation at its own time", "anchors": ["momentumopt/python/momentumopt/kinoptpy/create_data_file.py: create_file"]}
{"id": "C75", "title": "create_qp_files and create_lqr_files write the trajectories the controllers expect", "statement": "The files have one row per millisecond for whole seconds covering the plan; each holds its quantity at its time, per foot in the announced order, the centre-of-mass velocity being momentum over mass, and contact activation marking exactly the feet with interpolated upward force; joint files hold joint quantities.", "quantifier": "all quadruped plans, weights, previous file contents", "why_tests_cant": "unbounded plans; every file is assembled by index manipulation over all rows", "anchors": ["momentumopt/python/momentumopt/kinoptpy/create_data_file.py: create_qp_files, create_lqr_files"]}
{"id": "C76", "title": "The gain scripts compute optimal linear feedback", "statement": "The backward pass of the LQR gain scripts yields one gain per time step, and the feedback with these gains has the least cost among all control policies, from every state, for the discretised linearised dynamics and the weights; it raises no error for symmetric weights, positive semidefinite on states and positive definite on inputs; the optimal first input is unique. (Claimed also: from the first instant on, with the weights set in the script.)", "quantifier": "all trajectories, horizons, dimensions, weights, linearisations, policies", "why_tests_cant": "optimality over all policies of an unbounded horizon; induction over the horizon", "anchors": ["momentumopt/python/momentumopt/kinoptpy/lqr_gain_computation.py: lqr_backward_pass, compute_lqr_gains, descretise_dynamics", "momentumopt/python/momentumopt/kinoptpy/end_eff_lqr_gain_computation.py: lqr_backward_pass, compute_lqr_gains, compute_lin_dyn"]}
{"id": "C77", "title": "The gain scripts linearise the dynamics they state", "statement": "The state and input matrices used by the gain scripts are the derivatives of the centroidal dynamics at the trajectory: multiplied by any step of one coordinate they give the change of the dynamics; the moments of contact forces are lever arm times force, each force acting at its own foot.", "quantifier": "all states, inputs, steps of a coordinate, plans", "why_tests_cant": "statement about all real states and perturbations of any size, not about sampled differences", "anchors": ["momentumopt/python/momentumopt/kinoptpy/lqr_gain_computation.py: compute_dyn, analytical_lin_dyn", "momentumopt/python/momentumopt/kinoptpy/end_eff_lqr_gain_computation.py: compute_dyn, compute_lin_dyn, compute_r_cross", "momentumopt/python/momentumopt/kinoptpy/create_data_file.py: create_file, create_lqr_files"]}
{"id": "C78", "title": "Optimising the timing repeats the plan until it settles, at most the allowed number of times", "statement": "DynamicsOptimizer::optimize solves one problem if times are fixed, with the initial position plus the desired motion as goal; with optimised times it solves a first problem and at most MaxNumTimeIterations further ones, each built from the sequence the previous one left, ends after the first further pass that has settled (residual below the tolerance, or changed by less than the least improvement, in this or an earlier pass), and returns the last pass; with enough states it always completes. (Claimed also: a plan that settles at once is not recomputed.)", "quantifier": "all settings, contact plans, initial states, solver answers, numbers of passes", "why_tests_cant": "a history of solver calls of unbounded length, each depending on the ones before", "anchors": ["momentumopt/src/momentumopt/dynopt/DynamicsOptimizer.cpp: optimize, internalOptimize"]}
{"id": "C79", "title": "Orientations in the manifold LQR: products, rotation matrices, integration and difference agree", "statement": "In lqr_gain_manifold.CentroidalLqr the quaternion product is Hamilton's; the matrix of a unit quaternion is a rotation, rotates vectors like the quaternion, and products go to products; integrating a tangent vector applies that rotation on the left and keeps the length up to a relative loss below 1e-13 per step, over any number of steps; difference and integration are inverse to each other; control is active exactly at the times at which some foot is in contact. (Claimed also: the difference is the shortest rotation.)", "quantifier": "all quaternions, tangent vectors, numbers of steps, contact plans", "why_tests_cant": "identities over all real quaternions including the branch for small angles; drift over unbounded sequences", "anchors": ["momentumopt/python/momentumopt/kinoptpy/lqr_gain_manifold.py: quaternion_to_rotation, exp_quaternion, log_quaternion, quaternion_product, integrate_quaternion, quaternion_difference, switching_dynamics"]}
{"id": "C80", "title": "The reference of the manifold LQR is a rigid-body trajectory and its derivatives are those of a step", "statement": "Every step of the manifold LQR exists for nonzero quaternions and satisfies the balances of momentum and angular momentum of the rigid body under gravity, the control counting only while a foot is in contact; the reference starts at the first planned state and follows the dynamics at every time; the change of momentum over the plan is the impulse of the active forces and the weight. (Claimed also: dynamics_derivatives returns the derivatives of the step.)", "quantifier": "all states, controls, contact plans, horizons", "why_tests_cant": "balance laws over all real states and unbounded horizons; a linear solve in every step", "anchors": ["momentumopt/python/momentumopt/kinoptpy/lqr_gain_manifold.py: integrate_step, compute_trajectory_from_controls, increment_x, diff_x, dynamics_derivatives"]}
{"id": "C81", "title": "The gains of the manifold LQR are optimal for its model", "statement": "compute_value_function returns the value of the minimal quadratic model and the gains of its minimiser; with convex costs the backward pass yields one gain per time which, with some feedforward, minimises the cost of the linear-quadratic problem over all policies from every state; cost gradients are right up to the step of the differences. (Claimed also: the Hessian used is that of the cost, so that the problem is convex.)", "quantifier": "all dimensions, horizons, derivatives, costs, policies", "why_tests_cant": "optimality over all policies by induction over an unbounded horizon", "anchors": ["momentumopt/python/momentumopt/kinoptpy/lqr_gain_manifold.py: cost, cost_derivatives, cost_dxdx, compute_Q, compute_value_function, compute_gains"]}
{"id": "C82", "title": "The planner's command line", "statement": "For every command line, parse_arguments ends in exactly one way: exit with the usage message iff the line is not a sequence of the documented options (short ones may be joined, long ones abbreviated, what follows the first other word or -- is ignored); otherwise help if -h occurs anywhere; otherwise an error if the last file given (the empty name if none) does not exist; otherwise that file with the last robot named. (Claimed also: --disable_lqr makes a difference.)", "quantifier": "all lists of strings, all file systems", "why_tests_cant": "all strings; option parsing with abbreviations and joined letters", "anchors": ["momentumopt/python/momentumopt/kino_dyn_planner.py: parse_arguments"]}
{"id": "C83", "title": "The planner alternates dynamics and kinematics and returns consistent plans", "statement": "MotionPlanner.optimize_motion first optimises the dynamics without tracking and with the configured weights, then for each configured iteration the kinematics for the dynamic plan before it and the dynamics for the kinematic plan just computed with the tracking weights; it returns the last plans, with the time vector and (if asked) the feedback of the returned dynamic plan; so whatever a dynamics optimisation guarantees about the kinematic plan it is given holds of the returned pair; without iterations the kinematic plan is the one from before the call. (Claimed also: a second call starts from the configured weights.)", "quantifier": "all numbers of iterations, optimisers, initial plans, settings", "why_tests_cant": "the history of calls has unbounded length and each depends on the ones before; state is shared by reference", "anchors": ["momentumopt/python/momentumopt/motion_planner.py: optimize_motion, optimize_dynamics, optimize_kinematics, optimize_dynamics_feedback", "momentumopt/src/momentumopt/dynopt/DynamicsOptimizer.cpp: optimize, updateTrackingObjective"]}
{"id": "C84", "title": "A kinematic state is a set of independent variables that read back what was last assigned", "statement": "Whatever sequence of assignments (arrays of the robot's sizes; rejected ones included) is made to a new KinematicsState through its properties, every property afterwards reads the last value assigned to it, no assignment changes another property except that the generalised rates are base linear, base angular and joint rates put together, orientations are exchanged as x y z w, and the generalised positions are position, orientation and joints; arrays of the wrong size for fixed-size properties are rejected with nothing changed; resizing a sequence leaves exactly that many new states whatever it held. (Claimed also: the parts of the rates never overlap; refuted, generalised rates of another size are accepted and with one entry too few an angular velocity overwrites a joint velocity.)", "quantifier": "all numbers of joints, all histories of assignments, all values", "why_tests_cant": "histories of assignments of unbounded length with overlapping views of one vector", "anchors": ["momentumopt/include/momentumopt/kinopt/KinematicsState.hpp: RobotPosture, RobotVelocity, RobotAcceleration, KinematicsState, KinematicsSequence", "momentumopt/src/momentumopt/kinopt/KinematicsState.cpp", "momentumopt/srcpy/momentumopt/kinopt/PyKinematics.cpp"]}
{"id": "C85", "title": "The Pinocchio implementation hands the robot's kinematics to the optimizer", "statement": "updateJacobiansAndState writes centre of mass, momenta, end-effector positions (BR, BL, FR, FL), momentum matrices and Jacobians of the given configuration; integrating and differentiating postures store what Pinocchio returns. (Claimed also: the methods work on every state, the floor constraints reach the optimizer, and they keep every listed frame above the floor; refuted: the methods call a property and always raise TypeError; the constraints are stored under names that are not the properties, so the optimizer sees none, however many updates are made, and the base may fall; the rows use the frame's own axes and accept penetration unless the frame's z axis is vertical.)", "quantifier": "all robots, configurations, velocities, time steps, histories of updates", "why_tests_cant": "statement over all robots and all histories of updates; the failure is silent (an attribute of another name)", "anchors": ["momentumopt/python/momentumopt/PinocchioKinematicsInterface.py", "momentumopt/srcpy/momentumopt/kinopt/PyKinematics.cpp: KinematicsInterface", "momentumopt/src/momentumopt/kinopt/KinematicsInterface.cpp: internalInitialization"]}
{"id": "C86", "title": "The simulator wrapper exchanges states, torques and forces joint by joint", "statement": "For every robot whose joints the wrapper accepts: get_state returns base pose, base velocities in body axes and every joint's position and velocity at the place Pinocchio gives that joint; reset_state followed by get_state returns the state that was set (unit quaternion); a command of the wrong size is refused, and otherwise only torques of listed joints change; get_force returns, per foot, the forces of the contact points of that foot's link in order. (Claimed also: every joint receives the torque of its own place, and only contacts of the robot count; refuted: the torques are right iff going from list position to place twice is the identity, true of the shipped joint list; contacts between other bodies with the same link number are counted.)", "quantifier": "all robots, joint orders, numberings, states, torques, lists of contact points", "why_tests_cant": "all permutations of joints; wrong only for orders that are not involutions, which the shipped one is", "anchors": ["momentumopt/python/momentumopt/robots/simulator.py: Simulator", "momentumopt/python/momentumopt/motion_execution.py: MotionSimulator.init_simulation"]}
{"id": "C87", "title": "The execution loop's records: swing times, and the configuration of the Jacobians", "statement": "For every simulation, the swing times recorded for a foot are exactly the intervals from a reading of its contact points with a force below the threshold to the next one above it. The Jacobians used in pass k are those of the configuration of pass k-1 with dynamics feedback. (Claimed also: Jacobians belong to the current configuration, every flight phase is recorded, and under the foot's own name; refuted: without feedback the Jacobians of the start are used throughout; a foot without contact points never starts a swing; the i-th foot of the simulator is never the i-th foot of the robot.)", "quantifier": "all simulations (any number of passes, contact points, configurations)", "why_tests_cant": "runs of unbounded length; the defects leave plausible plots", "anchors": ["momentumopt/python/momentumopt/motion_execution.py: MotionExecutor.execute_motion, calculate_momentum", "momentumopt/python/momentumopt/robots/blmc_robot_wrapper.py: set_configuration, get_jacobian"]}
{"id": "C88", "title": "The robot wrapper returns the kinematics of its current configuration", "statement": "After any history of set_configuration, update_configuration and Jacobian evaluations, frame Jacobians are those of the current configuration in world axes, and so are the centre of mass and its Jacobian; unknown frames, universe, root_joint and the rotational Jacobian of the centre of mass are refused; the desired velocity reaches the goal in the given time; with two joints per leg all legs start in the same bent posture. (Claimed also: get_transformation is current, get_jacobian(internal=False) evaluates at its argument, the robots with three joints per leg start bent alike; refuted: placements are those of the last evaluated frame Jacobian; the argument is ignored; the slice sets one leg only.)", "quantifier": "all robots, histories of calls, configurations, numbers of legs, angles", "why_tests_cant": "histories of unbounded length over cached data", "anchors": ["momentumopt/python/momentumopt/robots/blmc_robot_wrapper.py: BasicRobotWrapper, QuadrupedWrapper, Quadruped12Wrapper, BipedWrapper"]}
{"id": "C89", "title": "A dynamic state's Python properties read back what was last assigned", "statement": "Whatever sequence of assignments is made to a new DynamicsState from Python (dt, com, lmom, amom, lmomd, amomd, setEffPosition, setEffForce, setEffActivation with effector numbers 0 to 3), every reading afterwards returns the last value assigned to that property and effector, or its initial value. (Claimed also: the same for setEffTorque, and an invalid effector number is rejected; refuted: setEffTorque overwrites the position, no history of calls ever changes a torque; an invalid number is undefined behaviour.)", "quantifier": "all histories of assignments, all values, all integers as effector numbers", "why_tests_cant": "histories of unbounded length; a wrong setter corrupts another property silently", "anchors": ["momentumopt/srcpy/momentumopt/dynopt/PyDynamics.cpp: setEffPosition, setEffForce, setEffTorque, setEffActivation, init_dynamics", "momentumopt/include/momentumopt/dynopt/DynamicsState.hpp: DynamicsState"]}
{"id": "C90", "title": "Messages of the LQR solver contain the numbers at their places", "statement": "For every format text with at least one hole (% followed by one digit), and at most as many numbers as holes, the printed message is the text with the numbers in the holes in order, each with its digit as precision; formatting ends for every text. (Claimed also: any text prints and the configured precision is used; refuted: text without hole prints nothing, text ending in % throws, more numbers than holes read out of range, a precision of two figures is cut to its first.)", "quantifier": "all texts, all lists of numbers", "why_tests_cant": "all strings of unbounded length; index arithmetic on substrings", "anchors": ["solver_lqr/src/solver_lqr/LqrInfoPrinter.cpp: split, printMsg, display"]}
{"id": "C91", "title": "Display helpers: time, norms, rotations", "statement": "display_motion takes exactly the last time stamp for ascending time stamps and raises otherwise; the weighted norm is the sum of |weight| times norm over non-negligible weights; quat2mat is a rotation exactly for unit quaternions (or without vector part); the patch drawn lies in the contact's plane; plotted time steps add up to the time stamps. (Claimed also: a frame is shown at its time, quat2mat normalises; refuted: it is shown at the time of the frame before; (1,1,0,0) gives no rotation.)", "quantifier": "all lists of time stamps, vectors, weights, quaternions, planes", "why_tests_cant": "lists of unbounded length, all reals", "anchors": ["momentumopt/python/momentumopt/kinoptpy/utils.py: display_motion, norm", "momentumopt/python/momentumopt/helpers.py: quat2mat, Graphics.show_motion"]}
{"id": "C92", "title": "The interior-point solver keeps the best iterate it has seen", "statement": "For every behaviour of the numerical steps: whenever optimize returns the kept iterate (inaccurate codes, iteration limit, unreliable direction, variables leaving the cone), that iterate was visited and no later iterate that was compared is better by the solver's own comparison; if no visited iterate shows a sign of infeasibility, no visited iterate at all improves gap, residuals, kappa/tau and merit together. A better iterate has strictly smaller gap and merit, so no two are better than each other. (Claimed also: the comparison is an order; refuted: it is not transitive.)", "quantifier": "all problems, settings, starting points and behaviours of the numerical steps (sequences of iterates of any length)", "why_tests_cant": "over all histories of iterates; only a run that goes wrong returns the kept one", "anchors": ["solver/src/solver/optimizer/CvxInfoPrinter.cpp: OptimizationInfo::isBetterThan, operator=", "solver/src/solver/optimizer/IPSolver.cpp: optimize, saveIterateAsBest, restoreBestIterate"]}
{"id": "C93", "title": "A contact's Python properties read back what was last assigned", "statement": "Whatever sequence of assignments is made to a new ContactState from Python (start_time, end_time, position, placement, contactType, active; placements rigid), every reading afterwards returns the last value assigned; position and the fourth column of placement are the same. The placement of a contact read from a file is rigid exactly if the orientation in the file has norm one or no vector part. (Claimed also: any 4x4 matrix is read back; refuted for matrices that are not rigid.)", "quantifier": "all histories of assignments, all rotations (all branches of the conversion to a quaternion), all rows of a contact file", "why_tests_cant": "all rotation matrices and histories; the conversion has four branches chosen by the matrix", "anchors": ["momentumopt/srcpy/momentumopt/cntopt/PyContacts.cpp: init_contacts", "momentumopt/src/momentumopt/cntopt/ContactState.cpp: contactPlacement, ContactState"]}
{"id": "C94", "title": "The configuration file configures the kinematics solvers", "statement": "For every complete configuration file with load_kinematics true, init_from_settings gives every attribute of the kinematics optimizer, its inverse-kinematics solver (first or second order, as the file says) and its trajectory generator the value of its own entry of the file, whatever was there before, and changes no other attribute. (Claimed also: for every complete file; refuted: with load_kinematics false the flag that selects the solver is read uninitialised.)", "quantifier": "all complete files, all planner states, all earlier attribute values, both orders", "why_tests_cant": "over all file contents and states; a swapped weight gives plausible motions", "anchors": ["momentumopt/python/momentumopt/motion_planner.py: MotionPlanner.init_from_settings", "momentumopt/src/momentumopt/setting/PlannerSetting.cpp: initialize, get"]}
{"id": "C95", "title": "The settings of the LQR solver are those of its file", "statement": "For every file with all entries and sensible numbers SolverLqrSetting::initialize returns normally and every setting reads as its entry; the line search coefficients are base^-(i*i) (for a base above one: 1 first, then strictly decreasing and positive), the number of time steps is the integer part of horizon/step, control limits are replaced exactly when the file has some; the results file is the name with its last five characters replaced, also when the call raises. A file that lacks an entry is never accepted; a missing file raises; results of a run are refused as settings; an assigned setting reads back and no other changes. (Claimed also: a call that returns normally has loaded the settings, any positive number of coefficients works; refuted: a file that is not YAML is dropped silently; a number with a fraction writes past the vector.)", "quantifier": "all files, names, earlier settings, parameters and values", "why_tests_cant": "over all file contents, incomplete ones and earlier states included", "anchors": ["solver_lqr/src/solver_lqr/SolverLqrSetting.cpp: SolverLqrSetting::initialize, get", "solver_lqr/include/solver_lqr/SolverLqrParams.hpp"]}
{"id": "C96", "title": "State and control sequences of the LQR solver", "statement": "The first initialize of a problem gives T+1 zero states and T zero controls of the dimensions of the setting; after any history of initialize calls the controls are those of the last; assignment copies a sequence exactly; sums and multiples act on the feedforward entry by entry, are associative and distribute; a multiple keeps the feedback, a sum has that of its right operand; a right operand that is too short is undefined. (Claimed also: a second initialize gives the states of its setting, empty sequences can be assigned, sums commute; refuted: states of all calls pile up with the oldest first; assignment of an empty sequence reads past its end; the feedback of the left operand is lost.)", "quantifier": "all histories of initialize, all sequences, numbers and dimensions", "why_tests_cant": "histories and sequences of unbounded length; tests initialise once", "anchors": ["solver_lqr/src/solver_lqr/OcpDescription.cpp: OcpBase::initialize, StateSequence::resize, ControlSequence::resize, operator=, operator+, operator*", "solver_lqr/include/solver_lqr/OcpDescription.hpp"]}
{"id": "C97", "title": "Checks of a solution of the real-time QP interface", "statement": "checkSolution accepts only points that violate no equality by more than the first and no inequality by more than the second threshold, accepts every feasible point, and with thresholds zero accepts exactly the feasible points; computeOptimalityCondition is zero exactly at the feasible points where the gradient of the objective is a combination of the rows of the equalities and of the inequalities within 1e-8 of their bound; for a convex objective such a point with no nearly active inequality is a minimum. (Claimed also: it is zero only at optimal points; refuted: signs of multipliers are not looked at.)", "quantifier": "all problems, dimensions, points and thresholds", "why_tests_cant": "all reals and dimensions; a wrong sign shows only at special points", "anchors": ["solver/include/solver/rt_optimizer/RtQPSolverInterface.hpp: checkSolution, computeOptimalityCondition"]}
