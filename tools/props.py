import json
P=[]
def p(title,statement,quant,why,anchors):
    P.append(dict(id="C%02d"%(len(P)+1),title=title,statement=statement,quantifier=quant,why_tests_cant=why,anchors=anchors))
S="solver/src/solver/"; SI="solver/include/solver/"; M="momentumopt/src/momentumopt/"; MI="momentumopt/include/momentumopt/"; Q="solver_lqr/src/solver_lqr/"; PY="momentumopt/python/momentumopt/"
p("Affine-expression algebra is sound",
  "The value of an affine expression built through the public operators (+, -, *, /, +=, -=, *=, construction from a variable or a constant) equals the same arithmetic applied to the values of its operands, for every assignment of the variables; clean() never changes the value and leaves no variable twice.",
  "all expressions, all operator sequences, all variable assignments","a test evaluates finitely many expressions at finitely many points; aliasing, cancellation and repeated variables appear only in some histories",
  [S+"interface/Exprs.cpp: LinExpr::operator+=, -=, *=, clean, isClean",SI+"interface/Exprs.hpp"])
p("Compiled conic program has exactly the user's linear feasible set",
  "After the user has added variables and linear (in)equality constraints, a point is feasible for the compiled standard form {A x = b, G x + s = h, s >= 0} if and only if it satisfies every constraint the user added, and every binary variable lies in [0,1].",
  "all models, all sequences of addVar/addLinConstr, all points","feasible-set equality is over a continuum of points and an unbounded family of constraint sequences",
  [S+"interface/ConicProblem.cpp: addLinConstr, buildProblem, setLinConstr"])
p("Second-order-cone constraints compile exactly",
  "A constraint sum_i L_i(x)^2 <= R(x)^2, R(x) >= 0 added by addSocConstr holds at x if and only if the corresponding block of h - G x lies in the second-order cone.",
  "all SOC constraints and points","continuum of points",[S+"interface/ConicProblem.cpp: addSocConstr, buildProblem",SI+"interface/Exprs.hpp: DCPQuadExpr"])
p("Quadratic constraints and objectives are represented exactly by their epigraph cones",
  "For every quadratic term coeff*L(x)^2 with coeff>=0 in an objective or constraint, the auxiliary variable t and cone block (1+t, t-1, 2 L) added by the compiler are feasible exactly when t >= L(x)^2, and t enters the linear row or cost with weight coeff; hence minimising the compiled linear objective over the auxiliary variables gives the user's quadratic objective, and a quadratic constraint is satisfiable in the auxiliaries exactly when the user's inequality holds.",
  "all quadratic expressions and points","continuum; exactness in both directions can not be sampled",[S+"interface/ConicProblem.cpp: addQuaConstr, setObjective, buildProblem"])
p("Declared bounds of variables are enforced",
  "A variable declared with lower bound lb and upper bound ub takes, in every feasible point of the compiled problem, a value within [lb, ub].",
  "all variables, all bounds, all feasible points","requires reasoning over every feasible point",[S+"interface/ConicProblem.cpp: addVar, buildProblem",SI+"interface/Var.hpp"])
p("Dimensions of the compiled problem are consistent",
  "For every sequence of modelling calls the compiled matrices have exactly one row per cone coordinate (linear rows, then cone blocks, no overlap, no gap), every written row index is in range, and the number of columns equals the number of variables including auxiliaries.",
  "all modelling histories","an off-by-one appears only for particular mixes of constraint kinds",[S+"interface/ConicProblem.cpp: buildProblem, initializeProblem",S+"interface/Cone.cpp: setupLpcone, setupSocone"])
p("Optimisation-variable index map is a bijection",
  "The planner's variable blocks occupy pairwise disjoint consecutive index ranges, and id(row,col) with row,col in range is injective and covers exactly the block; out-of-range row/col requests are clamped to the block and so never read another block.",
  "all block shapes, all (row,col), all histories of variable registration","unbounded shapes; a collision needs a particular pair",[S+"interface/OptVar.cpp: OptVar::id, ExprVec",M+"dynopt/DynamicsOptimizer.cpp: addVariableToModel"])
p("Reading a solution back puts every value in the cell it was requested for",
  "After a solve, saving a block returns a matrix whose (r,c) entry is the solution value of the model variable created for (r,c) of that block, for all blocks and all solver outputs.",
  "all blocks, all solver outputs","index arithmetic over unbounded shapes",[M+"dynopt/DynamicsOptimizer.cpp: saveSolution, addVariableToModel",M+"kinopt/KinematicsOptimizer.cpp: saveSolution"])
p("Equilibration is an equivalence and is undone exactly",
  "Scaling the problem data and then unscaling returns the original data; a point is feasible (optimal) for the scaled problem iff its unscaled image is feasible (optimal) for the original; all rows of one second-order cone receive the same factor so cone membership is preserved.",
  "all problem data, all positive scalings, all points","continuum of data",[S+"optimizer/EqRoutine.cpp: setEquilibration, unsetEquilibration, scaleVariables"])
p("Jordan product and division of cone vectors are inverse",
  "For every u with nonzero cone determinant, conicDivision(u, conicProduct(u,v)) = v and conicProduct(u, conicDivision(u,w)) = w, for the linear part and every second-order block.",
  "all cone layouts and vectors","continuum",[S+"interface/Cone.cpp: conicProduct, conicDivision"])
p("Projection used for starting points lands strictly inside the cone",
  "The projection of any vector used to initialise slacks and multipliers lies in the interior of the cone, and differs from the vector by a move along the cone identity that exceeds the smallest feasible move by exactly one.",
  "all vectors and layouts","continuum",[S+"interface/Cone.cpp: conicProjection"])
p("Nesterov-Todd scaling maps z and s to the same scaled point",
  "For every strictly interior pair (s,z) the scaling computed by the solver satisfies W z = W^{-1} s = lambda (and W^{-1} is the inverse of W).",
  "all interior pairs, all cone sizes","continuum; algebraic identity in square roots",[S+"interface/Cone.cpp: updateNTScalings, conicNTScaling"])
p("Permutations used by the factorisation are undone",
  "permute followed by unpermute (and conversely) is the identity for every permutation and vector, so the solution of the permuted system is returned in the user's order.",
  "all permutations, all vectors","n! permutations",[S+"optimizer/LinSolver.cpp: initialize, permuteSparseMatrix",SI+"optimizer/LinSolver.hpp"])
p("Interior-point loop terminates with a justified exit code",
  "The interior-point loop performs at most the configured number of iterations for every behaviour of the linear algebra; exit code Optimal is returned only when the measured residuals and gap at the returned iterate satisfy the configured tolerances, and Inaccurate codes only when the relaxed ones do.",
  "all problem data, all numerical behaviours of the inner solver","depends on unbounded numerical histories",[S+"optimizer/IPSolver.cpp: optimize, convergenceCheck"])
p("Interior-point steps keep slacks and multipliers in the cone",
  "The step length returned by the line search times any direction keeps s and z in the (interior of the) cone.",
  "all interior points, all directions","continuum",[S+"optimizer/IPSolver.cpp: lineSearch"])
p("Sparse LDL' factorisation and solve are correct",
  "When the factorisation succeeds, L D L' equals the (dynamically regularised) input matrix and the forward/diagonal/backward solves return the solution of the factored system.",
  "all matrices and right hand sides","continuum, all sizes",[S+"optimizer/SparseCholesky.cpp: factorize, solve"])
p("Iterative refinement never returns a worse solution",
  "The direction returned by the refined linear solve has a residual not larger than the residual before the last accepted correction; the number of refinement steps is bounded by the setting.",
  "all systems and residual behaviours","depends on numerical histories",[S+"optimizer/LinSolver.cpp: solve"])
p("Branch and bound returns the best binary-feasible leaf",
  "When branch and bound reports Optimal, the returned vector has the binaries integral and no other binary assignment has a better relaxation value; the incumbent is never forgotten.",
  "all trees and all relaxation oracles","tree shapes depend on solver outputs",[S+"optimizer/BnBSolver.cpp: optimize"])
p("Branch and bound explores a partition of the binary assignments within the iteration limit",
  "Branching on a node splits its set of binary assignments into two disjoint sets whose union is the node's set; leaf sets always cover the root set except for discarded nodes; the loop makes at most the configured number of iterations.",
  "all branching orders","exponentially many histories",[S+"optimizer/BnBSolver.cpp: optimize, getNodeFor"])
p("L-BFGS line search success implies sufficient decrease",
  "If the backtracking line search reports success the returned step satisfies the configured condition (Armijo / Wolfe / strong Wolfe) within the maximum number of evaluations, and the point returned is x + step*d with the returned value and gradient belonging to it.",
  "all objective functions, points, directions","quantifies over all functions",[S+"optimizer/LbfgsSolver.cpp: line_search_backtracking"])
p("L-BFGS returns the value of the point it returns",
  "After optimize() the reported optimal value equals the objective evaluated at the reported optimal vector, the sequence of accepted values is monotone, success means the gradient norm test holds, and iteration limits are respected.",
  "all functions, all parameter values, all line search outcomes","depends on failing line searches deep in a run",[S+"optimizer/LbfgsSolver.cpp: lbfgs, optimize"])
p("L-BFGS search direction is a descent direction",
  "If every stored correction pair has positive curvature, the direction computed by the two-loop recursion has negative inner product with every non-zero gradient.",
  "all memories and gradients","continuum",[S+"optimizer/LbfgsSolver.cpp: lbfgs two-loop recursion"])
p("LQR iterations never increase the cost",
  "Every accepted iterate of the LQR/DDP solver has strictly smaller cost than the previous; if no step is accepted the trajectory is left unchanged; the number of iterations is bounded by the setting.",
  "all problems (dynamics, objective oracles), all settings","quantifies over all dynamics and objectives",[Q+"SolverLqr.cpp: optimize",Q+"ForwardPass.cpp"])
p("LQR trajectory is consistent with its controls and limits",
  "After every forward pass, the stored state sequence starts at the initial state and each next state is the dynamics applied to the previous state and the stored control; with limits on, every stored control is inside the limits; the stored cost is the sum of the stage costs along the stored trajectory.",
  "all dynamics, controls, horizons","unbounded horizons, all functions",[Q+"ForwardPass.cpp: run",Q+"OcpDescription.cpp"])
p("LQR backward pass is optimal for linear-quadratic problems",
  "For linear dynamics and (convex) quadratic costs the feedback law computed by the backward pass minimises the cost-to-go from every state, and the value function stored is that minimum.",
  "all LQ problems, horizons, states","continuum of matrices",[Q+"BackwardPass.cpp: run, "+Q+"BackwardPass.cpp"])
p("Finite-difference derivatives are exact on the functions the solver assumes",
  "Central differences with the configured step reproduce gradient and Hessian exactly for quadratic objectives and Jacobians exactly for affine dynamics, for every evaluation point and every nonzero step, and the state/control arguments are restored.",
  "all quadratics, points, steps","continuum",[Q+"FiniteDifferences.cpp"])
p("Asynchronous null-space thread handshake is safe and live",
  "In every interleaving of the HQP main thread and the SVD thread the main thread reads null-space results only when the job it posted has been completed, the worker never works on data being modified, no wakeup is lost (no reachable deadlock while running), and stop makes the worker terminate.",
  "all interleavings and all lengths of task hierarchies","schedules can not be enumerated by tests",[SI+"rt_optimizer/RtHQPSolver.h: doSVDComputations, initialize, solveNextTask",SI+"rt_optimizer/RtMutex.hpp"])
p("Lower-priority tasks never disturb higher-priority equality tasks",
  "Solving a lower-priority task moves the solution only within the null space of all higher-priority equality tasks, so their residuals are unchanged, for every hierarchy length.",
  "all hierarchies and task matrices","continuum, unbounded number of ranks",[SI+"rt_optimizer/RtHQPSolver.h: solveNextTask",SI+"rt_optimizer/RtModel.h: solve"])
p("Real-time model reduces and re-expands the decision vector faithfully",
  "Reducing the columns of a cost to the active variables keeps exactly the columns of the active variables in order, so the reduced residual at the reduced solution equals the full residual at the expanded solution with inactive variables at zero; inequality slack is the norm of the positive part.",
  "all masks, matrices","2^n masks",[SI+"rt_optimizer/RtModel.h: reduceColumns, appendRowsOfRank, inequalitySlack"])
p("Contact schedule is sampled onto the time grid exactly",
  "After filling a dynamics sequence, an end-effector is active at grid step k exactly when k+1 time steps lies in [activation, deactivation) of one of its contacts, and the contact associated to that step is that contact.",
  "all contact plans, horizons, time steps","boundary times and unbounded plans",[M+"cntopt/ContactPlanInterface.cpp: fillDynamicsSequence"])
p("Active force variables are numbered contiguously",
  "For non-overlapping contacts, the numbers given to the active steps of an end-effector are 0,1,2,... in time order without gap or repetition and the stored total is their count.",
  "all plans","unbounded",[M+"cntopt/ContactPlanInterface.cpp: fillDynamicsSequence",MI+"dynopt/DynamicsState.hpp"])
p("Planned momenta and centre of mass obey the Newton-Euler dynamics",
  "In every feasible solution of the momentum optimisation problem (fixed time), com and linear momentum satisfy the discretised Newton equations with the sum of the active contact forces, gravity and the external force, at every time step; the stored plan's angular momentum is the integral of the contact torques of the stored forces.",
  "all horizons, contact plans, solver outputs","unbounded horizons, continuum",[M+"dynopt/DynamicsOptimizer.cpp: internalOptimize, storeSolution"])
p("Convex decomposition of the angular momentum rate is exact when its cones are tight",
  "With the auxiliary quadratic constraints tight the difference of the two convex parts equals the cross product lever-arm x force componentwise; in general the error is bounded by the constraint slack.",
  "all lever arms and forces","continuum",[M+"dynopt/DynamicsOptimizer.cpp: internalOptimize (quadratic constraints)"])
p("Friction constraints relate to Coulomb friction as documented",
  "The polyhedral friction constraint accepts every force inside the Coulomb cone of the surface and no force outside the cone with coefficient sqrt(2) mu; the second-order variant is exactly the Coulomb cone.",
  "all forces, rotations, friction coefficients","continuum",[MI+"dynopt/DynamicsOptimizer.hpp: FrictionCone",M+"dynopt/DynamicsOptimizer.cpp"])
p("Storing a plan writes exactly the planned values inside the sequence",
  "storeSolution writes the solution column t into dynamics state t for every t and touches no other memory.",
  "all horizons","memory safety at every horizon",[M+"dynopt/DynamicsOptimizer.cpp: storeSolution"])
p("Terrain regions are the convex hull of their vertices",
  "For counter-clockwise convex vertices the half-space description built for a terrain region contains every vertex (hence the hull), the normal is a unit vector orthogonal to the surface, and the rotation is orthonormal.",
  "all vertex lists","continuum",[M+"cntopt/TerrainDescription.cpp: TerrainRegion"])
p("Orientation utilities satisfy quaternion calculus identities",
  "The exponential map returns a unit quaternion, log inverts exp outside the small angle branch, the skew matrix times v is the cross product, quaternion matrices reproduce the quaternion product.",
  "all rotation vectors and quaternions","continuum",[M+"utilities/OrientationUtils.cpp"])
p("Trajectory generators interpolate their way-points",
  "A trajectory fitted to position/velocity/acceleration way-points takes exactly these values at their times whenever the linear solve is exact, and query times are clamped to the time span.",
  "all way-points and times","continuum",[M+"utilities/TrajectoryGenerator.cpp"])
p("Minimum-jerk polynomials satisfy their boundary conditions",
  "The swing polynomial meets start, end and via position and zero boundary velocity and acceleration conditions for all distinct start and end times; its derivative is the mathematical derivative; evaluation of a list of polynomials uses the polynomial of the right window.",
  "all times and positions","continuum; conditioning on t0<>t1",[PY+"kinoptpy/min_jerk_traj.py"])
p("Contact phases are recovered from the dynamics plan",
  "The contact plan extracted from the dynamics optimiser lists, for every end-effector, exactly the maximal intervals on which it is active.",
  "all activation patterns","2^N patterns",[PY+"kinoptpy/momentum_kinematics_optimizer.py: get_contact_plan_from_dyn_optimizer"])
p("QP wrapper solves the QP it is given",
  "The arguments passed to the dual solver describe the same feasible set and objective as min 1/2 x'Px + q'x, Gx <= h, Ax = b.",
  "all QPs","continuum",[PY+"kinoptpy/qp.py"])
p("Solver settings round-trip",
  "Setting a parameter and reading it back returns the value; setting one parameter changes no other; reading or writing an unknown parameter is rejected.",
  "all parameters, values, histories","all pairs of parameters and histories",[S+"interface/SolverSetting.cpp: get, set",SI+"interface/SolverParams.hpp"])
p("Feedback model reproduces the plan's dynamics",
  "One step of the feedback model's dynamics adds to momentum and com the Newton-Euler increments with the active effectors' forces; rolling it out from the planned initial state with the planned controls reproduces the planned linear momentum and com.",
  "all plans, horizons","unbounded horizons",[M+"dynopt/DynamicsFeedback.cpp: dynamics, setStatesAndControls"])
p("Kinematic trajectory problem integrates joint velocities",
  "In every feasible solution of the kinematic trajectory problem, joint positions are initial posture plus the accumulated steps and respect joint limits.",
  "all horizons, solver outputs","unbounded horizons",[M+"kinopt/KinematicsOptimizer.cpp: optimizeTrajectory"])
p("Time-optimal linearisation is the first-order model",
  "The linearised product of time step and force/velocity used for time optimisation agrees with the product and its gradient at the linearisation point for all values.",
  "all points","continuum",[M+"dynopt/DynamicsOptimizer.cpp: internalOptimize (TimeOpt)"])
p("Runge-Kutta integration is exact on polynomials of low degree",
  "One step of the generic integrator reproduces the exact increment for dynamics polynomial in time of degree at most 3 and its weights sum to one step.",
  "all coefficients, step sizes","continuum",[Q+"OcpDescription.cpp: internal_dynamics"])
p("Planner derived settings are consistent",
  "The number of time steps is the floor of horizon over time step, derived quantities (weight, gravity vector, extended active dofs) are functions of the loaded ones, and every getter returns the field of its enumerator or rejects it.",
  "all settings","all parameters",[M+"setting/PlannerSetting.cpp"])
p("Real-time affine/quadratic cost builders have the documented value",
  "Adding a squared norm of an affine residual to a quadratic cost adds exactly that function; substitution of an affine map of variables yields the composed function.",
  "all matrices and points","continuum",[SI+"rt_optimizer/RtMatrix.hpp: RtAffineUtils, RtQuadraticUtils"])
p("Givens rotations of the real-time QP keep the factor orthogonal",
  "Each rotation applied when adding or removing an active constraint is orthogonal and zeroes the intended entry, for all inputs.",
  "all inputs","continuum",[SI+"rt_optimizer/RtQPSolver.hpp"])
p("A modelling call that is rejected leaves the model unchanged",
  "If addVar/addLinConstr/addQuaConstr/addSocConstr/setObjective throws, a later optimise behaves as if the call had not been made.",
  "all histories with rejected calls","histories with errors",[S+"interface/ConicProblem.cpp: addQuaConstr, addSocConstr, addLinConstr"])
p("Re-setting the objective replaces the previous one",
  "Calling setObjective again makes optimise minimise the new objective only.",
  "all histories","histories",[S+"interface/ConicProblem.cpp: setObjective, buildProblem"])
p("Penalty objective and numerical gradient of the NLP wrapper",
  "The function handed to L-BFGS is the objective plus weight times the squared constraint violation; it equals the objective exactly on feasible points, is never smaller, and the gradient approximation leaves the evaluation point unchanged.",
  "all problems and points","continuum",[S+"optimizer/LbfgsSolver.cpp: evaluate, evaluate_objective_function"])
p("The factorised matrix is the regularised KKT matrix of the problem",
  "After building, permuting and any number of in-place scaling updates, the stored sparse matrix, read back in the user's order, is the regularised KKT matrix of the problem with the scalings of the last update: every scaling value is written to its own entry, nothing else changes.",
  "all problem sizes, cone layouts, permutations, update histories","the position map composes index arithmetic over blocks with a counting sort; an off-by-one shows only for particular layouts and permutations",
  [S+"optimizer/LinSolver.cpp: buildProblem, findPermutation, initialize, initializeMatrix, updateMatrix"])
p("Each accepted step reduces the residuals exactly as predicted",
  "With exact linear solves, an accepted combined step of length a with centring sigma changes the primal, dual and gap residuals of the homogeneous embedding by the factor 1 - a(1 - sigma) and keeps the iterate inside the cone, so along a run the residuals are the product of these factors times the initial ones.",
  "all problems, iterates in the cone, numbers of iterations","continuum and unbounded runs",
  [S+"optimizer/IPSolver.cpp: rhsCombinedStep, optimize"])
p("The real-time QP answer is optimal, its infeasibility verdict correct",
  "When RtQPSolver::optimize reports success the point satisfies the equalities, violates the inequalities by at most the exit tolerance, the returned number is its objective value, and no feasible point is better; when it reports failure no feasible point exists.",
  "all strictly convex problems, all run lengths","continuum of problems; the active-set history is unbounded",["solver/include/solver/rt_optimizer/RtQPSolver.hpp: solveQP, optimize, isOptimized"])
p("The real-time QP solver terminates and stays inside its storage",
  "RtQPSolver::optimize returns after finitely many active-set changes and never accesses an element outside its vectors, for every strictly convex problem.",
  "all strictly convex problems, all run lengths","termination needs an argument over all active-set histories",["solver/include/solver/rt_optimizer/RtQPSolver.hpp: solveQP, addConstraint, deleteConstraint"])
p("One inverse-kinematics step minimises the weighted task errors",
  "The joint velocity returned minimises the weighted squared errors of momentum, end-effector velocity and posture (plus a 1e-6 regularisation); in a flight phase it does so among the velocities that produce exactly the given momentum; the answer depends only on the arguments and settings, not on earlier calls.",
  "all robots, weights, gains, references, call histories","continuum and histories: the object caches kinematics and overwrites its arrays in place",["momentumopt/python/momentumopt/kinoptpy/inverse_kinematics.py: PointContactInverseKinematics.compute"])
p("Stored joint motion is the optimised plan",
  "After each trajectory iteration the stored joint positions, velocities and accelerations of every step are those of the solver's plan, hence respect the joint limits and are backward differences of one another; a failed solve leaves the stored motion unchanged.",
  "all robots, horizons, solver outputs, numbers of iterations, lists of active joints","unbounded horizons and iteration histories; the storing code integrates step by step and overwrites the states it reads",
  ["momentumopt/src/momentumopt/kinopt/KinematicsOptimizer.cpp: optimizeTrajectory"])
p("Posture optimisation solves the posture problem and tracks the desired state",
  "Every accepted posture satisfies the joint limits and the softened contact rows; an optimum minimises the tracking cost of center of mass, end-effectors and momenta; the initial state is at rest with the desired momenta; a state already at the target is returned without a solve.",
  "all robots, states, references, solver outputs","continuum of states and references",
  ["momentumopt/src/momentumopt/kinopt/KinematicsOptimizer.cpp: optimizePosture"])
p("Flight phases connect the contacts of every end-effector",
  "With kinematics loading on, flights of two steps or more and a viapoint for each flight: every gap between contacts (and before the first, after the last contact) becomes a motion that leaves the old pose at rest, follows the rest-to-rest profile over its viapoint and arrives at the next pose at rest; velocity and acceleration references are the derivatives of the position; orientations turn along the shorter arc during the first half and are unit; references of steps in contact, of other end-effectors, forces and momenta are unchanged.",
  "all contact plans of all end-effectors, horizons, step durations, viapoints","the searches for the contact changes run over unbounded sequences and each flight starts where the search of the previous one ended",
  ["momentumopt/src/momentumopt/cntopt/ContactPlanInterface.cpp: updateEndeffectorTrajectories, findMakeContactId, findBreakContactId, findActiveViapoints, generateFlightPhase"])
p("The whole-body motion follows from one inverse-kinematics step per time step",
  "The recorded motion starts at the initial configuration; each velocity minimises the weighted task errors for the planned references of its step (posture pulled to the regularisation trajectory, base to the desired orientation) and the next configuration is its integral; during a flight the velocities keep the horizontal and angular momentum of the last contact exactly and lose weight*dt of vertical momentum per step; the recorded configuration, velocity, center of mass, momentum and end-effector positions belong together; with consistent inputs it never fails. The initial configuration is the end of a chain of such steps from the default posture that stops at the first step shorter than 1e-3 or after max_iterations.",
  "all robots, contact plans, horizons, references, histories of the solver object","each step depends on the previous ones through the object's caches, through a momentum remembered since the last contact and through an array updated in place",
  ["momentumopt/python/momentumopt/kinoptpy/momentum_kinematics_optimizer.py: MomentumKinematicsOptimizer.optimize, optimize_initial_position, fill_kinematic_result"])
p("Regularisation trajectories pass through their via points",
  "For via points with increasing positive times the regularisation trajectory of every coordinate starts at the initial value, passes through each via point at its time, stays between neighbouring via values, is the minimum-jerk profile in between, and returns to the initial value at the end; without via points it is constant.",
  "all numbers of coordinates, via points, horizons and durations","the pieces are looked up in a list by time windows; which one answers at a boundary depends on all of them",
  ["momentumopt/python/momentumopt/kinoptpy/momentum_kinematics_optimizer.py: TrajectoryInterpolator"])
p("Second-order inverse kinematics returns the best joint accelerations and integrates them",
  "Without priorities a step returns the unique joint acceleration minimising the weighted squared errors of momentum rate, end-effector accelerations and joint posture (with their feed-forward, feedback gains and drift terms) plus the regularisation, whatever the object was used for before; it succeeds for non-negative weights and references of the right shapes. The motion is the semi-implicit integration of such accelerations with 1 ms; the recorded row j is the state after j*floor(1000 dt) steps with center of mass, momentum, end-effector positions and velocities of that state.",
  "all robots, weights, gains, references, horizons, time steps, histories of the object","the arrays of the object are overwritten in place and every step depends on all previous ones",
  ["momentumopt/python/momentumopt/kinoptpy/second_order_ik.py: SecondOrderInverseKinematics.step, solve","momentumopt/python/momentumopt/kinoptpy/momentum_kinematics_optimizer.py: optimize (second order branch)"])
p("With priorities the end-effectors come first and the momentum second",
  "With use_hierarchy and four end-effectors the returned acceleration minimises the squared error of the end-effector accelerations, and among all such accelerations the squared error of the momentum rate.",
  "all robots with four end-effectors, configurations, references, gains, histories","an optimum over all accelerations at two levels cannot be tested exhaustively",
  ["momentumopt/python/momentumopt/kinoptpy/second_order_ik.py: SecondOrderInverseKinematics.step"])
p("Sequential convex programming closes trust-region constraints to the threshold",
  "After a solve with at least one iteration allowed whose last programme is reported optimal, every constraint entered holds at the values of the variables, and every quadratic constraint entered with a trust region holds as an equality up to threshold^(1+refinements), whatever the points of linearisation were.",
  "all models built from modelling calls, guesses, settings, solvers whose optimal answers are feasible","unbounded models and refinement histories: each programme is linearised at the answer of the previous one",
  ["solver/src/solver/interface/ConicProblem.cpp: optimize, solveProblem, buildProblem"])
p("Refinements of soft constraints never make the solution worse",
  "With soft constraints and no trust regions, the objective plus weighted squared slack of the soft constraints does not increase from the warm start to the solution nor from one number of refinements to a larger one, as long as the solves are optimal.",
  "all models, guesses, numbers of refinements, exact solvers","a descent statement over unbounded refinement histories",
  ["solver/src/solver/interface/ConicProblem.cpp: optimize, solveProblem, buildProblem"])
p("A model is solved by the right solver the right number of times",
  "Models without approximated constraints are solved once, by branch and bound if they have binary variables; models with approximated constraints once per warm start, main solve and refinement; models with both go to the search over non-convex relaxations; with nothing to do the values stay and the code is indeterminate.",
  "all models, settings, solvers","unbounded models; the counters that decide are updated by every call and recomputed by every compilation",
  ["solver/src/solver/interface/Model.cpp: optimize","solver/src/solver/interface/ConicProblem.cpp: optimize, solveProblem"])
p("The momentum programme minimises the planner's cost over all feasible plans",
  "The convex programme the momentum planner builds has as optima exactly the plans that satisfy the planner's equations and cost no more than any other such plan, the cost being via points, goal and references of center of mass and momenta (last step apart), momentum rates, contact forces and their changes from and to the neighbouring steps, normal torques, and with time optimisation step durations and, after the first pass, the distance of the bounds from their model at the previous plan. Every feasible plan is a feasible point of the programme.",
  "all horizons, contact sequences, settings with non-negative weights, references, via points","an optimum over all plans of unbounded horizon and contact sequence cannot be tested exhaustively",
  ["momentumopt/src/momentumopt/dynopt/DynamicsOptimizer.cpp: internalOptimize, addCenterOfMassViapoints","solver/src/solver/interface/ConicProblem.cpp: buildProblem"])
p("The heuristics of the momentum planner deliver what they promise",
  "With trust regions a plan reported optimal satisfies all equations and its angular momentum is the time integral of the true contact torques up to weight/4*threshold^(1+refinements) per contact and second; with soft constraints the cost plus weighted squared slack does not increase with more refinements; with time optimisation, and for the warm start of the others, the plan is a cheapest one.",
  "all horizons, contact sequences, settings, solver settings, exact solvers","relates unbounded refinement histories to an exact physical law of every plan",
  ["momentumopt/src/momentumopt/dynopt/DynamicsOptimizer.cpp: internalOptimize","solver/src/solver/interface/ConicProblem.cpp: optimize, solveProblem, buildProblem"])
p("Mixed-integer problems with approximated constraints: the search answers the problem that was posed",
  "Optimising a problem with binary variables and trust-region or soft constraints terminates within the iteration limit for every numerical solver whose optimal answers are feasible; its nodes cover all 0/1 assignments at every pass; and an answer coded optimal or optimal-inaccurate satisfies every constraint posed, the trust-region ones as equalities up to threshold^(1+refinements), with every binary in [0,1] and within the integrality tolerance of 0 or 1, whatever values the variables had before.",
  "all problems with binaries and approximations, settings, previous contents of the search tree, values of the variables, sound solvers","every node is a sequence of convex programmes that starts where the previous node stopped: unbounded histories",
  ["solver/src/solver/optimizer/NcvxBnBSolver.cpp: optimize, initialize, updateNodeBounds, updateProblemData","solver/src/solver/interface/Model.cpp: optimize"])
p("A plan is replayed along the piecewise linear curve through its states",
  "The functions returned by desired_state and interpolate give, at every time and for every quantity they know, the value of the piecewise linear curve through the plan's states at their time stamps, constant before the first and after the last; so states are reproduced at their stamps and values stay within the planned range. (Claimed also: interpolated orientations are orientations.)",
  "all plans, quantities, increasing time vectors, real times","the nearest-neighbour lookup must be right for every real time and every spacing of the stamps",
  ["momentumopt/python/momentumopt/motion_execution.py: desired_state, interpolate"])
p("The time vector of a plan matches the planned motion",
  "create_time_vector starts at zero and leaves the i-th time step between states i and i+1, so that the replayed centre of mass moves with the planned momentum.",
  "all plans, fixed and optimised time steps","relates real-valued time steps of unbounded plans to the planner's integration rule",
  ["momentumopt/python/momentumopt/motion_planner.py: create_time_vector","momentumopt/python/momentumopt/motion_execution.py: interpolate"])
p("Executing a motion respects the torque limits and applies the planned forces in time",
  "Every commanded torque lies within the limits and equals the control law where that does; at every control tick the contact forces of the state in force at that time are applied, until the plan ends; the velocity of the momentum feedback is the configuration difference per control period.",
  "all gains, errors, forces, plans and numbers of control ticks","unbounded loop with an index that advances with time; the history of time stamps is overwritten while it is read",
  ["momentumopt/python/momentumopt/motion_execution.py: MotionExecutor.execute_motion, limit_torques, calculate_actual_trajectories"])
p("create_file writes every trajectory sampled once per millisecond",
  "create_file writes nine files; each has one row per millisecond of the plan (to the nearest), row i being i and the interpolated quantity at i milliseconds, forces multiplied by the weight; other files are not touched.",
  "all quadruped plans longer than half a millisecond","unbounded plans and real time stamps; each row depends on the interpolation at its own time",
  ["momentumopt/python/momentumopt/kinoptpy/create_data_file.py: create_file"])
p("create_qp_files and create_lqr_files write the trajectories the controllers expect",
  "The files have one row per millisecond for whole seconds covering the plan; each holds its quantity at its time, per foot in the announced order, the centre-of-mass velocity being momentum over mass, and contact activation marking exactly the feet with interpolated upward force; joint files hold joint quantities.",
  "all quadruped plans, weights, previous file contents","unbounded plans; every file is assembled by index manipulation over all rows",
  ["momentumopt/python/momentumopt/kinoptpy/create_data_file.py: create_qp_files, create_lqr_files"])
p("The gain scripts compute optimal linear feedback",
  "The backward pass of the LQR gain scripts yields one gain per time step, and the feedback with these gains has the least cost among all control policies, from every state, for the discretised linearised dynamics and the weights; it raises no error for symmetric weights, positive semidefinite on states and positive definite on inputs; the optimal first input is unique. (Claimed also: from the first instant on, with the weights set in the script.)",
  "all trajectories, horizons, dimensions, weights, linearisations, policies","optimality over all policies of an unbounded horizon; induction over the horizon",
  ["momentumopt/python/momentumopt/kinoptpy/lqr_gain_computation.py: lqr_backward_pass, compute_lqr_gains, descretise_dynamics","momentumopt/python/momentumopt/kinoptpy/end_eff_lqr_gain_computation.py: lqr_backward_pass, compute_lqr_gains, compute_lin_dyn"])
p("The gain scripts linearise the dynamics they state",
  "The state and input matrices used by the gain scripts are the derivatives of the centroidal dynamics at the trajectory: multiplied by any step of one coordinate they give the change of the dynamics; the moments of contact forces are lever arm times force, each force acting at its own foot.",
  "all states, inputs, steps of a coordinate, plans","statement about all real states and perturbations of any size, not about sampled differences",
  ["momentumopt/python/momentumopt/kinoptpy/lqr_gain_computation.py: compute_dyn, analytical_lin_dyn","momentumopt/python/momentumopt/kinoptpy/end_eff_lqr_gain_computation.py: compute_dyn, compute_lin_dyn, compute_r_cross","momentumopt/python/momentumopt/kinoptpy/create_data_file.py: create_file, create_lqr_files"])
p("Optimising the timing repeats the plan until it settles, at most the allowed number of times",
  "DynamicsOptimizer::optimize solves one problem if times are fixed, with the initial position plus the desired motion as goal; with optimised times it solves a first problem and at most MaxNumTimeIterations further ones, each built from the sequence the previous one left, ends after the first further pass that has settled (residual below the tolerance, or changed by less than the least improvement, in this or an earlier pass), and returns the last pass; with enough states it always completes. (Claimed also: a plan that settles at once is not recomputed.)",
  "all settings, contact plans, initial states, solver answers, numbers of passes","a history of solver calls of unbounded length, each depending on the ones before",
  ["momentumopt/src/momentumopt/dynopt/DynamicsOptimizer.cpp: optimize, internalOptimize"])
p("Orientations in the manifold LQR: products, rotation matrices, integration and difference agree",
  "In lqr_gain_manifold.CentroidalLqr the quaternion product is Hamilton's; the matrix of a unit quaternion is a rotation, rotates vectors like the quaternion, and products go to products; integrating a tangent vector applies that rotation on the left and keeps the length up to a relative loss below 1e-13 per step, over any number of steps; difference and integration are inverse to each other; control is active exactly at the times at which some foot is in contact. (Claimed also: the difference is the shortest rotation.)",
  "all quaternions, tangent vectors, numbers of steps, contact plans","identities over all real quaternions including the branch for small angles; drift over unbounded sequences",
  ["momentumopt/python/momentumopt/kinoptpy/lqr_gain_manifold.py: quaternion_to_rotation, exp_quaternion, log_quaternion, quaternion_product, integrate_quaternion, quaternion_difference, switching_dynamics"])
p("The reference of the manifold LQR is a rigid-body trajectory and its derivatives are those of a step",
  "Every step of the manifold LQR exists for nonzero quaternions and satisfies the balances of momentum and angular momentum of the rigid body under gravity, the control counting only while a foot is in contact; the reference starts at the first planned state and follows the dynamics at every time; the change of momentum over the plan is the impulse of the active forces and the weight. (Claimed also: dynamics_derivatives returns the derivatives of the step.)",
  "all states, controls, contact plans, horizons","balance laws over all real states and unbounded horizons; a linear solve in every step",
  ["momentumopt/python/momentumopt/kinoptpy/lqr_gain_manifold.py: integrate_step, compute_trajectory_from_controls, increment_x, diff_x, dynamics_derivatives"])
p("The gains of the manifold LQR are optimal for its model",
  "compute_value_function returns the value of the minimal quadratic model and the gains of its minimiser; with convex costs the backward pass yields one gain per time which, with some feedforward, minimises the cost of the linear-quadratic problem over all policies from every state; cost gradients are right up to the step of the differences. (Claimed also: the Hessian used is that of the cost, so that the problem is convex.)",
  "all dimensions, horizons, derivatives, costs, policies","optimality over all policies by induction over an unbounded horizon",
  ["momentumopt/python/momentumopt/kinoptpy/lqr_gain_manifold.py: cost, cost_derivatives, cost_dxdx, compute_Q, compute_value_function, compute_gains"])
p("The planner's command line",
  "For every command line, parse_arguments ends in exactly one way: exit with the usage message iff the line is not a sequence of the documented options (short ones may be joined, long ones abbreviated, what follows the first other word or -- is ignored); otherwise help if -h occurs anywhere; otherwise an error if the last file given (the empty name if none) does not exist; otherwise that file with the last robot named. (Claimed also: --disable_lqr makes a difference.)",
  "all lists of strings, all file systems","all strings; option parsing with abbreviations and joined letters",
  ["momentumopt/python/momentumopt/kino_dyn_planner.py: parse_arguments"])
p("The planner alternates dynamics and kinematics and returns consistent plans",
  "MotionPlanner.optimize_motion first optimises the dynamics without tracking and with the configured weights, then for each configured iteration the kinematics for the dynamic plan before it and the dynamics for the kinematic plan just computed with the tracking weights; it returns the last plans, with the time vector and (if asked) the feedback of the returned dynamic plan; so whatever a dynamics optimisation guarantees about the kinematic plan it is given holds of the returned pair; without iterations the kinematic plan is the one from before the call. (Claimed also: a second call starts from the configured weights.)",
  "all numbers of iterations, optimisers, initial plans, settings","the history of calls has unbounded length and each depends on the ones before; state is shared by reference",
  ["momentumopt/python/momentumopt/motion_planner.py: optimize_motion, optimize_dynamics, optimize_kinematics, optimize_dynamics_feedback","momentumopt/src/momentumopt/dynopt/DynamicsOptimizer.cpp: optimize, updateTrackingObjective"])
p("A kinematic state is a set of independent variables that read back what was last assigned",
  "Whatever sequence of assignments (arrays of the robot's sizes; rejected ones included) is made to a new KinematicsState through its properties, every property afterwards reads the last value assigned to it, no assignment changes another property except that the generalised rates are base linear, base angular and joint rates put together, orientations are exchanged as x y z w, and the generalised positions are position, orientation and joints; arrays of the wrong size for fixed-size properties are rejected with nothing changed; resizing a sequence leaves exactly that many new states whatever it held. (Claimed also: the parts of the rates never overlap; refuted, generalised rates of another size are accepted and with one entry too few an angular velocity overwrites a joint velocity.)",
  "all numbers of joints, all histories of assignments, all values","histories of assignments of unbounded length with overlapping views of one vector",
  ["momentumopt/include/momentumopt/kinopt/KinematicsState.hpp: RobotPosture, RobotVelocity, RobotAcceleration, KinematicsState, KinematicsSequence","momentumopt/src/momentumopt/kinopt/KinematicsState.cpp","momentumopt/srcpy/momentumopt/kinopt/PyKinematics.cpp"])
p("The Pinocchio implementation hands the robot's kinematics to the optimizer",
  "updateJacobiansAndState writes centre of mass, momenta, end-effector positions (BR, BL, FR, FL), momentum matrices and Jacobians of the given configuration; integrating and differentiating postures store what Pinocchio returns. (Claimed also: the methods work on every state, the floor constraints reach the optimizer, and they keep every listed frame above the floor; refuted: the methods call a property and always raise TypeError; the constraints are stored under names that are not the properties, so the optimizer sees none, however many updates are made, and the base may fall; the rows use the frame's own axes and accept penetration unless the frame's z axis is vertical.)",
  "all robots, configurations, velocities, time steps, histories of updates","statement over all robots and all histories of updates; the failure is silent (an attribute of another name)",
  ["momentumopt/python/momentumopt/PinocchioKinematicsInterface.py","momentumopt/srcpy/momentumopt/kinopt/PyKinematics.cpp: KinematicsInterface","momentumopt/src/momentumopt/kinopt/KinematicsInterface.cpp: internalInitialization"])
p("The simulator wrapper exchanges states, torques and forces joint by joint",
  "For every robot whose joints the wrapper accepts: get_state returns base pose, base velocities in body axes and every joint's position and velocity at the place Pinocchio gives that joint; reset_state followed by get_state returns the state that was set (unit quaternion); a command of the wrong size is refused, and otherwise only torques of listed joints change; get_force returns, per foot, the forces of the contact points of that foot's link in order. (Claimed also: every joint receives the torque of its own place, and only contacts of the robot count; refuted: the torques are right iff going from list position to place twice is the identity, true of the shipped joint list; contacts between other bodies with the same link number are counted.)",
  "all robots, joint orders, numberings, states, torques, lists of contact points","all permutations of joints; wrong only for orders that are not involutions, which the shipped one is",
  ["momentumopt/python/momentumopt/robots/simulator.py: Simulator","momentumopt/python/momentumopt/motion_execution.py: MotionSimulator.init_simulation"])
p("The execution loop's records: swing times, and the configuration of the Jacobians",
  "For every simulation, the swing times recorded for a foot are exactly the intervals from a reading of its contact points with a force below the threshold to the next one above it. The Jacobians used in pass k are those of the configuration of pass k-1 with dynamics feedback. (Claimed also: Jacobians belong to the current configuration, every flight phase is recorded, and under the foot's own name; refuted: without feedback the Jacobians of the start are used throughout; a foot without contact points never starts a swing; the i-th foot of the simulator is never the i-th foot of the robot.)",
  "all simulations (any number of passes, contact points, configurations)","runs of unbounded length; the defects leave plausible plots",
  ["momentumopt/python/momentumopt/motion_execution.py: MotionExecutor.execute_motion, calculate_momentum","momentumopt/python/momentumopt/robots/blmc_robot_wrapper.py: set_configuration, get_jacobian"])
p("The robot wrapper returns the kinematics of its current configuration",
  "After any history of set_configuration, update_configuration and Jacobian evaluations, frame Jacobians are those of the current configuration in world axes, and so are the centre of mass and its Jacobian; unknown frames, universe, root_joint and the rotational Jacobian of the centre of mass are refused; the desired velocity reaches the goal in the given time; with two joints per leg all legs start in the same bent posture. (Claimed also: get_transformation is current, get_jacobian(internal=False) evaluates at its argument, the robots with three joints per leg start bent alike; refuted: placements are those of the last evaluated frame Jacobian; the argument is ignored; the slice sets one leg only.)",
  "all robots, histories of calls, configurations, numbers of legs, angles","histories of unbounded length over cached data",
  ["momentumopt/python/momentumopt/robots/blmc_robot_wrapper.py: BasicRobotWrapper, QuadrupedWrapper, Quadruped12Wrapper, BipedWrapper"])
p("A dynamic state's Python properties read back what was last assigned",
  "Whatever sequence of assignments is made to a new DynamicsState from Python (dt, com, lmom, amom, lmomd, amomd, setEffPosition, setEffForce, setEffActivation with effector numbers 0 to 3), every reading afterwards returns the last value assigned to that property and effector, or its initial value. (Claimed also: the same for setEffTorque, and an invalid effector number is rejected; refuted: setEffTorque overwrites the position, no history of calls ever changes a torque; an invalid number is undefined behaviour.)",
  "all histories of assignments, all values, all integers as effector numbers","histories of unbounded length; a wrong setter corrupts another property silently",
  ["momentumopt/srcpy/momentumopt/dynopt/PyDynamics.cpp: setEffPosition, setEffForce, setEffTorque, setEffActivation, init_dynamics","momentumopt/include/momentumopt/dynopt/DynamicsState.hpp: DynamicsState"])
p("Messages of the LQR solver contain the numbers at their places",
  "For every format text with at least one hole (% followed by one digit), and at most as many numbers as holes, the printed message is the text with the numbers in the holes in order, each with its digit as precision; formatting ends for every text. (Claimed also: any text prints and the configured precision is used; refuted: text without hole prints nothing, text ending in % throws, more numbers than holes read out of range, a precision of two figures is cut to its first.)",
  "all texts, all lists of numbers","all strings of unbounded length; index arithmetic on substrings",
  ["solver_lqr/src/solver_lqr/LqrInfoPrinter.cpp: split, printMsg, display"])
p("Display helpers: time, norms, rotations",
  "display_motion takes exactly the last time stamp for ascending time stamps and raises otherwise; the weighted norm is the sum of |weight| times norm over non-negligible weights; quat2mat is a rotation exactly for unit quaternions (or without vector part); the patch drawn lies in the contact's plane; plotted time steps add up to the time stamps. (Claimed also: a frame is shown at its time, quat2mat normalises; refuted: it is shown at the time of the frame before; (1,1,0,0) gives no rotation.)",
  "all lists of time stamps, vectors, weights, quaternions, planes","lists of unbounded length, all reals",
  ["momentumopt/python/momentumopt/kinoptpy/utils.py: display_motion, norm","momentumopt/python/momentumopt/helpers.py: quat2mat, Graphics.show_motion"])
p("The interior-point solver keeps the best iterate it has seen",
  "For every behaviour of the numerical steps: whenever optimize returns the kept iterate (inaccurate codes, iteration limit, unreliable direction, variables leaving the cone), that iterate was visited and no later iterate that was compared is better by the solver's own comparison; if no visited iterate shows a sign of infeasibility, no visited iterate at all improves gap, residuals, kappa/tau and merit together. A better iterate has strictly smaller gap and merit, so no two are better than each other. (Claimed also: the comparison is an order; refuted: it is not transitive.)",
  "all problems, settings, starting points and behaviours of the numerical steps (sequences of iterates of any length)","over all histories of iterates; only a run that goes wrong returns the kept one",
  ["solver/src/solver/optimizer/CvxInfoPrinter.cpp: OptimizationInfo::isBetterThan, operator=","solver/src/solver/optimizer/IPSolver.cpp: optimize, saveIterateAsBest, restoreBestIterate"])
p("A contact's Python properties read back what was last assigned",
  "Whatever sequence of assignments is made to a new ContactState from Python (start_time, end_time, position, placement, contactType, active; placements rigid), every reading afterwards returns the last value assigned; position and the fourth column of placement are the same. The placement of a contact read from a file is rigid exactly if the orientation in the file has norm one or no vector part. (Claimed also: any 4x4 matrix is read back; refuted for matrices that are not rigid.)",
  "all histories of assignments, all rotations (all branches of the conversion to a quaternion), all rows of a contact file","all rotation matrices and histories; the conversion has four branches chosen by the matrix",
  ["momentumopt/srcpy/momentumopt/cntopt/PyContacts.cpp: init_contacts","momentumopt/src/momentumopt/cntopt/ContactState.cpp: contactPlacement, ContactState"])
p("The configuration file configures the kinematics solvers",
  "For every complete configuration file with load_kinematics true, init_from_settings gives every attribute of the kinematics optimizer, its inverse-kinematics solver (first or second order, as the file says) and its trajectory generator the value of its own entry of the file, whatever was there before, and changes no other attribute. (Claimed also: for every complete file; refuted: with load_kinematics false the flag that selects the solver is read uninitialised.)",
  "all complete files, all planner states, all earlier attribute values, both orders","over all file contents and states; a swapped weight gives plausible motions",
  ["momentumopt/python/momentumopt/motion_planner.py: MotionPlanner.init_from_settings","momentumopt/src/momentumopt/setting/PlannerSetting.cpp: initialize, get"])
p("The settings of the LQR solver are those of its file",
  "For every file with all entries and sensible numbers SolverLqrSetting::initialize returns normally and every setting reads as its entry; the line search coefficients are base^-(i*i) (for a base above one: 1 first, then strictly decreasing and positive), the number of time steps is the integer part of horizon/step, control limits are replaced exactly when the file has some; the results file is the name with its last five characters replaced, also when the call raises. A file that lacks an entry is never accepted; a missing file raises; results of a run are refused as settings; an assigned setting reads back and no other changes. (Claimed also: a call that returns normally has loaded the settings, any positive number of coefficients works; refuted: a file that is not YAML is dropped silently; a number with a fraction writes past the vector.)",
  "all files, names, earlier settings, parameters and values","over all file contents, incomplete ones and earlier states included",
  ["solver_lqr/src/solver_lqr/SolverLqrSetting.cpp: SolverLqrSetting::initialize, get","solver_lqr/include/solver_lqr/SolverLqrParams.hpp"])
p("State and control sequences of the LQR solver",
  "The first initialize of a problem gives T+1 zero states and T zero controls of the dimensions of the setting; after any history of initialize calls the controls are those of the last; assignment copies a sequence exactly; sums and multiples act on the feedforward entry by entry, are associative and distribute; a multiple keeps the feedback, a sum has that of its right operand; a right operand that is too short is undefined. (Claimed also: a second initialize gives the states of its setting, empty sequences can be assigned, sums commute; refuted: states of all calls pile up with the oldest first; assignment of an empty sequence reads past its end; the feedback of the left operand is lost.)",
  "all histories of initialize, all sequences, numbers and dimensions","histories and sequences of unbounded length; tests initialise once",
  ["solver_lqr/src/solver_lqr/OcpDescription.cpp: OcpBase::initialize, StateSequence::resize, ControlSequence::resize, operator=, operator+, operator*","solver_lqr/include/solver_lqr/OcpDescription.hpp"])
p("Checks of a solution of the real-time QP interface",
  "checkSolution accepts only points that violate no equality by more than the first and no inequality by more than the second threshold, accepts every feasible point, and with thresholds zero accepts exactly the feasible points; computeOptimalityCondition is zero exactly at the feasible points where the gradient of the objective is a combination of the rows of the equalities and of the inequalities within 1e-8 of their bound; for a convex objective such a point with no nearly active inequality is a minimum. (Claimed also: it is zero only at optimal points; refuted: signs of multipliers are not looked at.)",
  "all problems, dimensions, points and thresholds","all reals and dimensions; a wrong sign shows only at special points",
  ["solver/include/solver/rt_optimizer/RtQPSolverInterface.hpp: checkSolution, computeOptimalityCondition"])
with open("/verif/properties.jsonl","w") as f:
    for q in P: f.write(json.dumps(q)+"\n")
print(len(P))
