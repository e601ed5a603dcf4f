{"id": "C01", "title": "Reduced numbering of free dofs", "statement": "After constructing a flat assembler, constraintsBelow(i) is the number of constrained dofs with index smaller than i, size() equals reducedSize() plus the number of constrained dofs, and i -> i - constraintsBelow(i) is a strictly increasing bijection from the free dofs onto 0..reducedSize()-1.", "quantifier": "every number of dofs and every pattern of Dirichlet flags", "why_tests_cant": "there are 2^n flag patterns for every n; tests fix a few", "anchors": ["ikarus/assembler/interface.hh: FlatAssemblerBase::FlatAssemblerBase, constraintsBelow, reducedSize, size"]}
{"id": "C02", "title": "Full/reduced vector round trip", "statement": "createReducedVector(createFullVector(r)) = r for every vector r of length reducedSize(), and createFullVector(createReducedVector(v)) equals v on free dofs and is zero on constrained dofs for every v of length size().", "quantifier": "all flag patterns, all vectors of the right length", "why_tests_cant": "must hold for every flag pattern and vector", "anchors": ["ikarus/assembler/simpleassemblers.inl: createFullVector, createReducedVector"]}
{"id": "C03", "title": "Raw assembly accumulates every element contribution at its global index", "statement": "vector(Raw) has length size() and its entry at dof d is the sum, in element order, of exactly those element-vector entries whose global index is d; matrix(Raw) entry (r,c) is the sum of exactly those element-matrix entries whose global indices are (r,c); scalar() is the sum of the element scalars.", "quantifier": "all element lists, connectivities, element vectors/matrices, including elements that repeat a dof", "why_tests_cant": "infinitely many connectivities; a dropped or doubled contribution can hide on any particular mesh", "anchors": ["ikarus/assembler/simpleassemblers.inl: getScalarImpl, assembleRawVectorImpl, assembleRawMatrixImpl"]}
{"id": "C04", "title": "Full and reduced vectors are the raw vector with Dirichlet treatment", "statement": "vector(Full) equals vector(Raw) on free dofs and is exactly zero on constrained dofs; vector(Reduced) equals createReducedVector(vector(Raw)), bit for bit.", "quantifier": "all element lists, connectivities, flag patterns and element vectors", "why_tests_cant": "universally quantified over meshes and constraints; equality must be exact also in floating point", "anchors": ["ikarus/assembler/simpleassemblers.inl: getVectorImpl, getReducedVectorImpl"]}
{"id": "C05", "title": "Full and reduced dense matrices are the raw matrix with Dirichlet treatment", "statement": "For the dense assembler matrix(Full) agrees with matrix(Raw) on free rows and columns, has zero constrained rows and columns except a unit diagonal, and matrix(Reduced) is matrix(Raw) restricted to the free rows and columns in increasing order.", "quantifier": "all element lists, connectivities, flag patterns and element matrices", "why_tests_cant": "universally quantified over meshes and constraints", "anchors": ["ikarus/assembler/simpleassemblers.inl: DenseFlatAssembler::getRawMatrixImpl, getMatrixImpl, getReducedMatrixImpl"]}
{"id": "C06", "title": "Sparse and dense assemblers agree", "statement": "For each Dirichlet option the sparse assembler's matrix, read entry by entry, equals the dense assembler's matrix for the same elements, flags and requirement.", "quantifier": "all element lists with distinct dofs per element, all flag patterns, all element matrices, all three Dirichlet options", "why_tests_cant": "two independent implementations with cached index arrays must agree on every mesh", "anchors": ["ikarus/assembler/simpleassemblers.inl: SparseFlatAssembler::*, DenseFlatAssembler::*", "ikarus/utils/eigensparseaddon.hh: getLinearIndex"]}
{"id": "C07", "title": "Assembler results do not depend on call history", "statement": "After any sequence of scalar/vector/matrix requests with any options and requirements, the next request returns what a freshly constructed assembler would return for it (sparsity pattern and index caches never corrupt later results).", "quantifier": "every finite history of requests", "why_tests_cant": "the caches are filled lazily and appended to; only some interleavings exercise them", "anchors": ["ikarus/assembler/simpleassemblers.inl: getRawMatrixImpl, getMatrixImpl, getReducedMatrixImpl, preProcessSparseMatrix, preProcessSparseMatrixReduced"]}
{"id": "C08", "title": "Sparse assembly only writes to slots that belong to the addressed entry", "statement": "Every cached linear index used during sparse assembly lies inside the value array and denotes the slot of exactly the (row, column) pair being assembled; no contribution is written outside the sparsity pattern.", "quantifier": "all meshes and flag patterns, all element-local index pairs", "why_tests_cant": "an off-by-one in the compressed column storage only shows for particular sparsity patterns", "anchors": ["ikarus/assembler/simpleassemblers.inl: createOccupationPattern, createReducedOccupationPattern, createLinearDOFsPerElement, createLinearDOFsPerElementReduced", "ikarus/utils/eigensparseaddon.hh: getLinearIndex"]}
{"id": "C09", "title": "Binding discipline of assemblers", "statement": "A request without arguments on an assembler whose requirement (or affordances, or Dirichlet option, if it needs them) is not bound raises an error and never returns data; once bound it returns what the explicit call with the bound arguments returns, and the most recent bind wins.", "quantifier": "every sequence of bind and request calls", "why_tests_cant": "histories of binds are unbounded", "anchors": ["ikarus/assembler/interface.hh: bind, boundToRequirement, boundToAffordanceCollection, boundToDBCOption, requirement, affordanceCollection, dBCOption, scalar, vector, matrix"]}
{"id": "C10", "title": "Manipulated assemblers apply callbacks in registration order", "statement": "An assembler manipulator returns the base assembler's result transformed by all callbacks registered so far for that kind (scalar, vector, matrix), each exactly once and in registration order, and does not change what the original assembler returns.", "quantifier": "every sequence of bind-callback and request operations", "why_tests_cant": "callback sequences are unbounded", "anchors": ["ikarus/assembler/assemblermanipulatorbuildingblocks.hh: ScalarManipulator, VectorManipulator, MatrixManipulator", "ikarus/assembler/assemblermanipulatorfuser.hh: makeAssemblerManipulator"]}
{"id": "C11", "title": "Dirichlet flags reflect the history of operations", "statement": "After any sequence of fixDOFs/fixBoundaryDOFs/setSingleDOF/reset, isConstrained(i) holds exactly when the last operation that wrote flag i set it, fixedDOFsize() is the number of constrained dofs, and size() never changes.", "quantifier": "every sequence of flag operations", "why_tests_cant": "histories are unbounded", "anchors": ["ikarus/utils/dirichletvalues.hh: fixDOFs, fixBoundaryDOFs, setSingleDOF, reset, isConstrained, fixedDOFsize, size"]}
{"id": "C12", "title": "Copies of Dirichlet values are independent", "statement": "Modifying a copy of a DirichletValues object never changes the flags of the original, and vice versa.", "quantifier": "every history of operations on an object and its copy", "why_tests_cant": "aliasing appears only after particular copy/modify histories", "anchors": ["ikarus/utils/dirichletvalues.hh: dirichletFlagsBackend_, setSingleDOF, fixDOFs"]}
{"id": "C13", "title": "Inhomogeneous boundary values are written at the constrained solution entries", "statement": "Whenever the nonlinear solver synchronises a requirement with prescribed Dirichlet values at load factor lambda, every dof that carries a prescribed inhomogeneous value holds exactly that value afterwards, and all other entries receive the plain correction; the increment of the prescribed displacements for a load increment is the difference of the prescribed values and the solution at these dofs and zero elsewhere.", "quantifier": "all solution vectors, corrections, prescribed values (including zero) and load factors", "why_tests_cant": "must hold for every value, including exact zeros reached only at particular load factors", "anchors": ["ikarus/solver/nonlinearsolver/nonlinearsolverfactory.hh: updateFunctor", "ikarus/utils/dirichletvalues.hh: evaluateInhomogeneousBoundaryCondition"]}
{"id": "C14", "title": "Notify reaches exactly the live listeners", "statement": "notify invokes every callback whose token is still alive exactly once, in registration order, and never a callback whose token has been released, for every history of registrations, releases and notifications.", "quantifier": "every history of register/release/trim/notify operations", "why_tests_cant": "histories and interleavings are unbounded", "anchors": ["ikarus/utils/broadcaster/broadcaster.hh: registerListener, notify, trim"]}
{"id": "C15", "title": "Unregistering a listener silences it", "statement": "After unregisterListener(token) or unSubscribe the callback registered under that token is never invoked again.", "quantifier": "every history of operations and every way the caller keeps or drops the token", "why_tests_cant": "depends on who still owns the token", "anchors": ["ikarus/utils/broadcaster/broadcaster.hh: unregisterListener", "ikarus/utils/listener/listener.hh: subscribe, unSubscribe, unSubscribeLast, unSubscribeAll"]}
{"id": "C16", "title": "Newton-Raphson performs a bounded number of iterations", "statement": "solve() terminates after at least minIter and at most maxIter iterations whenever minIter <= maxIter, for every residual function and linear solver, and set-ups with minIter > maxIter are rejected.", "quantifier": "all settings, residual functions, linear solvers, starting points, including NaN residuals", "why_tests_cant": "the loop condition must work for every sequence of residual norms", "anchors": ["ikarus/solver/nonlinearsolver/newtonraphson.hh: NewtonRaphson::setup, solve"]}
{"id": "C17", "title": "A successful Newton-Raphson solve is converged", "statement": "If solve() reports success then the residual norm of the returned state is at most the tolerance (and is not NaN), the reported residual norm is that norm, and the reported iteration count is the number of corrections applied.", "quantifier": "all residual functions, linear solvers and settings", "why_tests_cant": "tests only see particular residual sequences", "anchors": ["ikarus/solver/nonlinearsolver/newtonraphson.hh: solve", "ikarus/solver/nonlinearsolver/solverinfos.hh: NonLinearSolverInformation"]}
{"id": "C18", "title": "An unsuccessful Newton-Raphson solve is not converged", "statement": "If solve() reports failure then the residual norm of the final state exceeds the tolerance.", "quantifier": "all residual functions, linear solvers and settings", "why_tests_cant": "only boundary iteration counts distinguish the two cases", "anchors": ["ikarus/solver/nonlinearsolver/newtonraphson.hh: solve"]}
{"id": "C19", "title": "Message protocol of the Newton-Raphson solver", "statement": "The messages of one solve() are INIT, then one block ITERATION_STARTED ... ITERATION_ENDED per iteration, in which the correction, correction-norm, solution-changed and residual-norm messages appear in that order exactly once, and FINISHED_SUCESSFULLY exactly once at the end iff success is reported.", "quantifier": "all residual functions, linear solvers and settings", "why_tests_cant": "traces are unbounded", "anchors": ["ikarus/solver/nonlinearsolver/newtonraphson.hh: solve", "ikarus/utils/broadcaster/broadcastermessages.hh: NonLinearSolverMessages"]}
{"id": "C20", "title": "Newton-Raphson solves affine problems in one iteration", "statement": "If the residual is affine with the supplied tangent and the linear solver is exact, one iteration of the default update makes the residual exactly zero (over exact arithmetic), from every starting point and in every dimension.", "quantifier": "all dimensions, affine maps, starting points", "why_tests_cant": "sign errors in the update show only for non-degenerate operators; universality over dimension is out of reach for tests", "anchors": ["ikarus/solver/nonlinearsolver/newtonraphson.hh: solve", "ikarus/utils/defaultfunctions.hh: UpdateDefault"]}
{"id": "C21", "title": "Subsidiary-function Newton step solves the bordered linearised system", "statement": "Each correction of the Newton method with scalar subsidiary function satisfies both the linearised equilibrium equations and the linearised subsidiary equation, whenever the denominator is non-zero and the linear solver is exact.", "quantifier": "all dimensions, tangents, load vectors, subsidiary functions", "why_tests_cant": "algebraic identity over all inputs", "anchors": ["ikarus/solver/nonlinearsolver/newtonraphsonwithscalarsubsidiaryfunction.hh: solve"]}
{"id": "C22", "title": "Successful path-following steps satisfy equilibrium and the subsidiary equation", "statement": "If the Newton method with scalar subsidiary function reports success then both the residual and the subsidiary function of the returned state are within tolerance.", "quantifier": "all residuals, subsidiary functions, settings and starting states", "why_tests_cant": "depends on whether any iteration is performed at all", "anchors": ["ikarus/solver/nonlinearsolver/newtonraphsonwithscalarsubsidiaryfunction.hh: solve"]}
{"id": "C23", "title": "Load control applies equal load increments and stops at the first failure", "statement": "LoadControl::run performs one solve at the initial parameter and then one solve per load step; after k steps the load factor is the initial one plus k times (tEnd - tBegin)/loadSteps, it stops at the first unsuccessful solve, reports success exactly if all solves succeeded, and non-positive step counts are rejected at construction.", "quantifier": "all step counts, intervals and solver outcome sequences", "why_tests_cant": "outcome sequences are unbounded", "anchors": ["ikarus/controlroutines/loadcontrol.hh: LoadControl::LoadControl", "ikarus/controlroutines/loadcontrol.inl: run"]}
{"id": "C24", "title": "Load control ends at tEnd", "statement": "A successful LoadControl::run leaves the load factor of the requirement at tEnd.", "quantifier": "all intervals, step counts and initial requirements", "why_tests_cant": "depends on the initial parameter of the requirement", "anchors": ["ikarus/controlroutines/loadcontrol.inl: run"]}
{"id": "C25", "title": "Message protocol of control routines", "statement": "A run announces CONTROL_STARTED first, brackets every step by STEP_STARTED and STEP_ENDED, announces SOLUTION_CHANGED once per successful solve inside the step, and announces CONTROL_ENDED exactly once when the run is over; observers of CONTROL_ENDED see the run's final information.", "quantifier": "all step counts and solver outcome sequences", "why_tests_cant": "traces depend on where a solve fails", "anchors": ["ikarus/controlroutines/loadcontrol.inl: run", "ikarus/controlroutines/pathfollowing.inl: run", "ikarus/controlroutines/controlinfos.hh"]}
{"id": "C26", "title": "Path following stops at the first failure and counts steps", "statement": "PathFollowing::run performs the initial predictor step and then up to the requested number of steps, stopping at the first failing solve; success is reported exactly when all solves succeeded and the reported iteration total is the sum over the performed solves.", "quantifier": "all step counts and solver outcome sequences", "why_tests_cant": "outcome sequences are unbounded", "anchors": ["ikarus/controlroutines/pathfollowing.inl: run", "ikarus/controlroutines/pathfollowing.hh"]}
{"id": "C27", "title": "Adaptive step sizing only shrinks the step", "statement": "The iteration-based step sizing never increases the magnitude of the step size, never changes its sign or makes it zero for positive targets, leaves it unchanged on the first step and whenever the previous step needed at most the desired number of iterations, and otherwise scales it by sqrt(desired/previous).", "quantifier": "all iteration counts, targets and step sizes, and all sequences of steps", "why_tests_cant": "sequences are unbounded", "anchors": ["ikarus/controlroutines/adaptivestepsizing.hh: IterationBased, NoOp"]}
{"id": "C28", "title": "Arc-length predictor satisfies the arc-length equation", "statement": "After the initial prediction the increment (DD, Dlambda) satisfies the subsidiary equation of the standard arc-length method exactly: sqrt(DD.DD + psi^2 Dlambda^2) equals the step size (for positive step sizes and a non-zero tangent solution).", "quantifier": "all dimensions, tangent solutions and step sizes", "why_tests_cant": "algebraic identity over all inputs", "anchors": ["ikarus/controlroutines/pathfollowingfunctions.hh: ArcLength::initialPrediction, operator()"]}
{"id": "C29", "title": "Subsidiary functions report exact derivatives", "statement": "For each subsidiary function (arc length, load control, displacement control) the returned derivatives with respect to the displacement increment and the load-factor increment are the derivatives of the returned value, wherever the function is differentiable.", "quantifier": "all increments, step sizes and controlled index sets", "why_tests_cant": "derivative consistency is a statement about every point", "anchors": ["ikarus/controlroutines/pathfollowingfunctions.hh: ArcLength, LoadControlSubsidiaryFunction, DisplacementControl"]}
{"id": "C30", "title": "Trust-region radius stays in (0, maximum radius]", "statement": "During a trust-region solve the radius is always positive and never exceeds the configured maximum; it shrinks only after poor model agreement; it grows exactly after very good agreement with the boundary hit, by the factor 3.5 up to the maximum.", "quantifier": "all energy functions, inner-solver results and settings", "why_tests_cant": "invariant over unboundedly many iterations", "anchors": ["ikarus/solver/nonlinearsolver/trustregion.hh: solve"]}
{"id": "C31", "title": "Trust-region never accepts a significant energy increase and rejection restores the state", "statement": "An accepted trust-region step does not raise the energy beyond the regularisation slack, and a rejected step leaves the solution exactly as before the step.", "quantifier": "all energies, steps and states", "why_tests_cant": "requires every energy landscape", "anchors": ["ikarus/solver/nonlinearsolver/trustregion.hh: solve"]}
{"id": "C32", "title": "Truncated conjugate gradient stays inside the trust region and decreases the model", "statement": "For zero initial guess, symmetric positive definite preconditioner and exact arithmetic, the returned step lies in the trust region (in the preconditioner norm) and its quadratic model value does not exceed that of the zero step.", "quantifier": "all dimensions, matrices (also indefinite), right-hand sides, radii and iteration limits", "why_tests_cant": "needs conjugacy invariants for unbounded iteration counts", "anchors": ["ikarus/linearalgebra/truncatedconjugategradient.hh: truncated_conjugate_gradient"]}
{"id": "C33", "title": "Requirement copies are deep and access errors are explicit", "statement": "Copying a finite-element requirement copies the solution and parameter it refers to: later writes through either object are not visible in the other; reading a solution or parameter that was never inserted raises an error; populated() tells which case applies.", "quantifier": "every history of insert, copy, write and read operations", "why_tests_cant": "aliasing histories are unbounded", "anchors": ["ikarus/finiteelements/ferequirements.hh: FERequirements"]}
{"id": "C34", "title": "Affordance conversions are consistent", "statement": "vectorAffordance(matrixAffordance) and scalarAffordance(vectorAffordance/matrixAffordance) commute, and the elasto-statics and other predefined collections consist of mutually corresponding affordances; a collection that was not given affordances has none of them.", "quantifier": "all affordance values", "why_tests_cant": "small but must hold for all present combinations; pairs with no counterpart are easily missed", "anchors": ["ikarus/finiteelements/ferequirements.hh: vectorAffordance, scalarAffordance, AffordanceCollection"]}
{"id": "C35", "title": "Voigt conversion round trips", "statement": "fromVoigt(toVoigt(A)) = A for every symmetric matrix and toVoigt(fromVoigt(v)) = v for every vector, in 1, 2 and 3 dimensions, for strain and stress conventions, and the index maps toVoigt(i,j)/fromVoigt(k), which exist in 2 and 3 dimensions, are mutually inverse.", "quantifier": "all symmetric matrices and Voigt vectors", "why_tests_cant": "real-valued inputs", "anchors": ["ikarus/utils/tensorutils.hh: toVoigt, fromVoigt"]}
{"id": "C36", "title": "Voigt products reproduce tensor contractions", "statement": "For symmetric A (stress) and B (strain) the dot product of their Voigt vectors equals the double contraction A:B, and the Voigt matrix of a fourth-order tensor with minor symmetries applied to the strain Voigt vector of B is the stress Voigt vector of C:B.", "quantifier": "all tensors", "why_tests_cant": "real-valued inputs; factor-2 mistakes cancel on special inputs", "anchors": ["ikarus/utils/tensorutils.hh: toVoigt"]}
{"id": "C37", "title": "Voigt matrix to fourth-order tensor round trip has minor symmetries", "statement": "fromVoigt of a symmetric Voigt matrix yields a fourth-order tensor with major and minor symmetries whose Voigt matrix is the input.", "quantifier": "all symmetric Voigt matrices", "why_tests_cant": "every component matters, including those never written", "anchors": ["ikarus/utils/tensorutils.hh: fromVoigt (matrix overload), toVoigt (tensor overload)"]}
{"id": "C38", "title": "Strain transformation matrix", "statement": "calcTransformationMatrix of a Jacobian maps the Voigt strain vector of E to that of the transformed tensor, for every Jacobian and symmetric E, in 2D and 3D; hence it is multiplicative and maps the identity to the identity.", "quantifier": "all Jacobians and strains", "why_tests_cant": "polynomial identity in all entries", "anchors": ["ikarus/utils/tensorutils.hh: transformationMatrix"]}
{"id": "C39", "title": "Orthonormalisation", "statement": "orthonormalizeMatrixColumns returns a matrix with orthonormal columns spanning the same column spaces, for every matrix with linearly independent columns of any size.", "quantifier": "all sizes and full-rank matrices", "why_tests_cant": "induction over the number of columns", "anchors": ["ikarus/utils/linearalgebrahelper.hh: orthonormalizeMatrixColumns"]}
{"id": "C40", "title": "Static condensation eliminates the condensed unknowns exactly", "statement": "For symmetric E and invertible condensed block, staticCondensation(E) applied to the retained unknowns equals the retained rows of E applied to the full vector whose condensed unknowns make the condensed rows vanish.", "quantifier": "all sizes, index sets and matrices", "why_tests_cant": "algebraic identity for every size", "anchors": ["ikarus/utils/linearalgebrahelper.hh: staticCondensation"]}
{"id": "C41", "title": "Compile-time square root", "statement": "ct_sqrt(x) is the integer square root of x (the largest r with r*r <= x) for every non-negative integer argument.", "quantifier": "all non-negative integers", "why_tests_cant": "unbounded range", "anchors": ["ikarus/utils/math.hh: ct_sqrt, sqrt_helper"]}
{"id": "C42", "title": "St. Venant-Kirchhoff consistency", "statement": "All input/output representations of the SVK (and linear elastic) material agree; stress is the derivative of the stored energy, the tangent is the derivative of the stress, energy is half the strain-stress product, and it is positive for every non-zero strain when mu > 0 and 3 lambda + 2 mu > 0.", "quantifier": "all strains, material parameters and representations", "why_tests_cant": "real-valued inputs", "anchors": ["ikarus/finiteelements/mechanics/materials/svk.hh", "ikarus/finiteelements/mechanics/materials/linearelasticity.hh", "ikarus/finiteelements/mechanics/materials/interface.hh"]}
{"id": "C43", "title": "St. Venant-Kirchhoff inversion round trip", "statement": "materialInversion(stresses(E)) returns E, stresses(materialInversion(S)) returns S, and the compliance returned is the inverse of the tangent moduli, whenever the inverse exists; it exists exactly for mu <> 0 and 3 lambda + 2 mu <> 0.", "quantifier": "all strains and material parameters", "why_tests_cant": "real-valued inputs", "anchors": ["ikarus/finiteelements/mechanics/materials/svk.hh: materialInversionImpl"]}
{"id": "C44", "title": "Plane-stress reduction of SVK", "statement": "planeStress(SVK) returns in-plane stresses for which the out-of-plane stresses of the 3D material vanish up to the tolerance given, its tangent is the classical plane-stress matrix E/(1-nu^2)[...], and stress = tangent*strain up to |lambda/(lambda+2mu)| times the tolerance; likewise for every other set of fixed stresses.", "quantifier": "all in-plane strains and admissible parameters", "why_tests_cant": "real-valued inputs", "anchors": ["ikarus/finiteelements/mechanics/materials/vanishingstress.hh", "ikarus/utils/linearalgebrahelper.hh: staticCondensation"]}
{"id": "C45", "title": "Neo-Hooke stress and tangent are derivatives of the energy", "statement": "For every symmetric C with positive determinant the second Piola-Kirchhoff stress is twice the gradient of the Neo-Hooke energy and the tangent moduli are twice the gradient of the stress; the reference state is stress- and energy-free.", "quantifier": "all right Cauchy-Green tensors, parameters and directions", "why_tests_cant": "derivative identity on an open set", "anchors": ["ikarus/finiteelements/mechanics/materials/hyperelastic/neohooke.hh"]}
{"id": "C46", "title": "Neo-Hooke closed-form inversion", "statement": "materialInversion of Neo-Hooke returns a strain whose stress is the given one, assuming the Lambert-W function returns an exact solution of w e^w = z; it rejects the stress of a strain only if the shear stiffness vanishes there or the bulk stiffness vanishes up to the tolerance.", "quantifier": "all stresses for which a solution exists, all parameters", "why_tests_cant": "real-valued inputs", "anchors": ["ikarus/finiteelements/mechanics/materials/hyperelastic/neohooke.hh: materialInversionImpl", "ikarus/utils/lambertw.hh"]}
{"id": "C47", "title": "Strain measure conversions", "statement": "Converting between displacement gradient, deformation gradient, right Cauchy-Green and Green-Lagrange strain gives mutually consistent values: every available conversion of a measure of F gives the other measure of F; from C or E, where the rotation is lost, the deformation gradient returned is the symmetric positive definite one with the same strains. A measure converted to itself stays as it is; conversions from or to linear strains and to displacement gradients are refused.", "quantifier": "all deformation gradients", "why_tests_cant": "real-valued inputs, many paths", "anchors": ["ikarus/finiteelements/mechanics/materials/strainconversions.hh"]}
{"id": "C48", "title": "Stress measure conversions are invertible", "statement": "Converting a stress between PK1, PK2, Kirchhoff and Cauchy and back with the same deformation gradient returns the original stress whenever det F != 0, and every composition of conversions equals the direct conversion. Linear stresses convert only to themselves.", "quantifier": "all stresses and invertible deformation gradients, all pairs of measures", "why_tests_cant": "real-valued inputs, many paths", "anchors": ["ikarus/finiteelements/mechanics/materials/stressconversions.hh"]}
{"id": "C49", "title": "Volumetric functions: derivatives", "statement": "For every volumetric function VF0..VF12 the reported first and second derivatives are the derivatives of the reported energy for every J > 0 and admissible beta.", "quantifier": "all J > 0 and beta", "why_tests_cant": "derivative identity on an interval", "anchors": ["ikarus/finiteelements/mechanics/materials/hyperelastic/volumetric/volumetricfunctions.hh"]}
{"id": "C50", "title": "Volumetric functions: reference state", "statement": "Every volumetric function except the purely logarithmic/linear ones has zero energy and zero first derivative at J = 1.", "quantifier": "all functions and parameters", "why_tests_cant": "holds for all beta or fails for all beta; sampled energies do not reveal an offset", "anchors": ["ikarus/finiteelements/mechanics/materials/hyperelastic/volumetric/volumetricfunctions.hh"]}
{"id": "C51", "title": "Deviatoric functions: derivatives", "statement": "For each deviatoric energy (Blatz-Ko, Ogden with total and deviatoric stretches, invariant-based, Gent, Arruda-Boyce) the reported principal stresses are the derivatives of the energy and the reported principal tangent moduli are the derivatives of the stresses for all positive principal stretches.", "quantifier": "all positive stretches, exponents and moduli; stresses for any number of terms, moduli for up to three deviatoric Ogden terms (the call is not defined beyond, see C75) and any number of other terms", "why_tests_cant": "derivative identity with arbitrarily many terms", "anchors": ["ikarus/finiteelements/mechanics/materials/hyperelastic/deviatoric/"]}
{"id": "C52", "title": "Numerical material inversion reports non-convergence", "statement": "numericalMaterialInversion either returns a strain whose stress residual is within tolerance or raises an error.", "quantifier": "all materials, stresses, start strains, tolerances and iteration limits", "why_tests_cant": "depends on the whole iteration sequence", "anchors": ["ikarus/finiteelements/mechanics/materials/numericalmaterialinversion.hh"]}
{"id": "C53", "title": "Elastic constant conversions are mutually consistent", "statement": "Converting a pair of elastic constants to any other constant agrees with first converting to (lambda, mu), and all round trips are the identity, for admissible constants whose Poisson ratio is distinguishable from 1/2.", "quantifier": "all admissible pairs of constants", "why_tests_cant": "real-valued inputs", "anchors": ["ikarus/finiteelements/physicshelper.hh: ConvertLameConstants"]}
{"id": "C54", "title": "Truss forces and stiffness derive from its energy", "statement": "The truss internal force is the gradient of its energy and its stiffness matrix is the gradient of the force, for every reference geometry, displacement and space dimension; forces are self-equilibrated and invariant under rigid translations.", "quantifier": "all geometries, displacements, dimensions", "why_tests_cant": "derivative identity", "anchors": ["ikarus/finiteelements/mechanics/truss.hh"]}
{"id": "C55", "title": "Stress result evaluators", "statement": "The von Mises stress is a real number (never NaN) for every stress state, is zero for hydrostatic 3D states, coincides in 2D with the plane-stress embedding, and the hydrostatic stress and the triaxiality of a 2D state coincide with those of its plane-stress embedding; polar stresses are the rotated components.", "quantifier": "all stress states and positions", "why_tests_cant": "real-valued inputs", "anchors": ["ikarus/io/resultevaluators.hh"]}
{"id": "C56", "title": "Eigenvalue solver set-up covers the whole spectrum", "statement": "For every problem size n >= 2 the full-spectrum solver requests a valid pair of partial solves whose results concatenate to all n eigenvalues in ascending order.", "quantifier": "all problem sizes and spectra", "why_tests_cant": "an arithmetic statement over all n; small n are exceptional", "anchors": ["ikarus/solver/eigenvaluesolver/generalizedeigensolver.hh: GeneralizedSymEigenSolver"]}
{"id": "C57", "title": "Element-local increments are addressed consistently", "statement": "When an element is evaluated at solution + increment, the increment entry used for local dof i is the i-th entry of the element-local increment vector, for scalar, power and composite bases and for every global numbering.", "quantifier": "all global numberings and local increments", "why_tests_cant": "only numberings other than the identity reveal it", "anchors": ["ikarus/finiteelements/fehelper.hh: localSolutionBlockVector, localSolutionBlockVectorScalar, localSolutionBlockVectorComposite", "ikarus/finiteelements/autodifffe.hh: calculateVector, calculateMatrix"]}
{"id": "C58", "title": "Sorting and unique helpers", "statement": "makeUniqueAndSort returns the strictly increasing list of the distinct inputs; appendUnique returns the position of the value, leaves existing entries and order unchanged and never creates duplicates.", "quantifier": "all sequences", "why_tests_cant": "unbounded sequences", "anchors": ["ikarus/utils/algorithms.hh: makeUniqueAndSort, appendUnique"]}
{"id": "C59", "title": "findLineSegment returns the straightest window", "statement": "findLineSegment returns the first window of the requested length whose fit residual is minimal among all windows.", "quantifier": "all data series and window lengths", "why_tests_cant": "unbounded series", "anchors": ["ikarus/utils/findlinesegment.cpp: findLineSegment"]}
{"id": "C60", "title": "Stopping criterion of the trust-region solver is sound", "statement": "The trust-region solve stops after finitely many iterations, and it reports success only if the gradient norm (or the correction norm) is within the configured tolerance.", "quantifier": "all energy functions and settings", "why_tests_cant": "sequences are unbounded", "anchors": ["ikarus/solver/nonlinearsolver/trustregion.hh: stoppingCriterion, solve"]}
{"id": "C61", "title": "Path following continues from the given state", "statement": "The first path-following step starts from the state that is passed in: after the initial prediction the load factor is the given one plus the predicted increment and the solution is the given one plus the predicted increment. A continuation without a first step is refused.", "quantifier": "all start states, step sizes and subsidiary functions", "why_tests_cant": "restarts from arbitrary states are not enumerable", "anchors": ["ikarus/controlroutines/pathfollowingfunctions.hh: initialPrediction, intermediatePrediction"]}
{"id": "C62", "title": "Load- and displacement-control predictors satisfy their constraint", "statement": "After the initial prediction of load control and displacement control the subsidiary equation is satisfied.", "quantifier": "all step sizes and controlled dof sets", "why_tests_cant": "holds for one controlled dof; arbitrary sets cannot be enumerated", "anchors": ["ikarus/controlroutines/pathfollowingfunctions.hh: LoadControlSubsidiaryFunction, DisplacementControl"]}
{"id": "C63", "title": "Trust-region success means a stationary point or an accepted tiny step", "statement": "If the trust-region solver reports success, then the gradient norm of the returned solution is within its tolerance, or the last step that changed the solution was within the correction tolerance; in particular rejected steps alone never count as convergence.", "quantifier": "all energy functions, inner solvers and settings", "why_tests_cant": "needs all rejection histories", "anchors": ["ikarus/solver/nonlinearsolver/trustregion.hh: stoppingCriterion, solve"]}
{"id": "C64", "title": "Trust-region message protocol", "statement": "A trust-region solve sends INIT first; each iteration sends ITERATION_STARTED, CORRECTION_UPDATED, then for accepted steps CORRECTIONNORM_UPDATED, RESIDUALNORM_UPDATED and SOLUTION_CHANGED, then ITERATION_ENDED; FINISHED_SUCESSFULLY is last and sent iff success is reported.", "quantifier": "all energy functions, inner solvers and settings", "why_tests_cant": "unbounded iteration and rejection histories", "anchors": ["ikarus/solver/nonlinearsolver/trustregion.hh: solve"]}
{"id": "C65", "title": "Truncated conjugate gradient with a start vector stays in the trust region", "statement": "Also for a start vector inside the trust region (random prediction of the trust-region solver) the returned step lies in the trust region.", "quantifier": "all start vectors inside the region, matrices, right-hand sides and radii", "why_tests_cant": "needs all start vectors", "anchors": ["ikarus/linearalgebra/truncatedconjugategradient.hh: truncated_conjugate_gradient", "ikarus/solver/nonlinearsolver/trustregion.hh: solve"]}
{"id": "C66", "title": "References taken from a requirement stay usable while it lives", "statement": "A reference obtained from globalSolution() or parameter() can be read and written as long as the requirement it was taken from is alive, also after insertGlobalSolution, insertParameter or assignment.", "quantifier": "every history of insert, copy, assign, destroy, take-reference, read and write operations", "why_tests_cant": "dangling references depend on the whole history", "anchors": ["ikarus/finiteelements/ferequirements.hh: FERequirements"]}
{"id": "C67", "title": "Fourth-order tensor products act as documented", "statement": "Applied to a second-order tensor E, dyadic(A,B) gives A (B:E), the symmetric identity gives the symmetric part of E, symmetricFourthOrder(A,B) the symmetric product, identityFourthOrder the trace times the identity, fourthOrderIKJL(A,B) gives A E B^T; symTwoSlots averages over exchanging the two slots.", "quantifier": "all tensors of dimension 1 to 3 and all slots", "why_tests_cant": "index mistakes cancel for symmetric or equal arguments", "anchors": ["ikarus/utils/tensorutils.hh: dyadic, symmetricIdentityFourthOrder, symmetricFourthOrder, identityFourthOrder, fourthOrderIKJL, symTwoSlots"]}
{"id": "C68", "title": "Reduced and full Voigt quantities correspond", "statement": "For every list of distinct fixed stress components the fixed and free Voigt indices are increasing, disjoint and cover all six; removing the fixed components and enlarging again restores the free components and gives zero elsewhere, and enlarging followed by removing is the identity.", "quantifier": "all lists of distinct components, all vectors and matrices", "why_tests_cant": "index sets and entries are arbitrary", "anchors": ["ikarus/finiteelements/mechanics/materials/materialhelpers.hh: createfreeVoigtIndices, createFixedVoigtIndices", "ikarus/utils/linearalgebrahelper.hh: removeCol, reduceMatrix, enlargeIfReduced"]}
{"id": "C69", "title": "Reduced compliance is the inverse of the condensed stiffness", "statement": "For a symmetric invertible matrix, the block of the inverse that belongs to the retained indices is the inverse of the statically condensed matrix (C163 applies this to the inverse modulus returned by the material inversion of plane stress materials).", "quantifier": "all sizes, increasing index sets and matrices", "why_tests_cant": "algebraic identity for every size", "anchors": ["ikarus/utils/linearalgebrahelper.hh: staticCondensation, reduceMatrix", "ikarus/finiteelements/mechanics/materials/vanishingstress.hh: materialInversionImpl, tangentModuliImpl"]}
{"id": "C71", "title": "Vanishing-strain materials are restrictions", "statement": "For every hyperelastic material the stress of the material with vanishing strains (plane strain) is the derivative of its energy with respect to the free strains, and the tangent returned is the derivative of that stress.", "quantifier": "all wrapped materials, fixed components and strains", "why_tests_cant": "arbitrary wrapped material", "anchors": ["ikarus/finiteelements/mechanics/materials/vanishingstrain.hh"]}
{"id": "C70", "title": "Vanishing-stress materials have zero fixed stresses", "statement": "For every hyperelastic material, choice of fixed stress components and strain, makeVanishingStress gives a state in which all fixed stress components are zero within the tolerance, and in which the strain components that are not fixed are the ones given.", "quantifier": "all wrapped materials, fixed components, tolerances and strains", "why_tests_cant": "arbitrary wrapped material", "anchors": ["ikarus/finiteelements/mechanics/materials/vanishingstress.hh"]}
{"id": "C72", "title": "Neo-Hooke inversion returns an admissible strain", "statement": "For every stress for which the Neo-Hooke material inversion does not abort, the returned right Cauchy-Green tensor is positive definite, that is, belongs to a deformation.", "quantifier": "all material parameters and symmetric stresses", "why_tests_cant": "continuum of stresses", "anchors": ["ikarus/finiteelements/mechanics/materials/hyperelastic/neohooke.hh"]}
{"id": "C73", "title": "Two-point moduli are the tangent of the PK1 stress", "statement": "For every material whose PK2 stress is a differentiable function of the Green-Lagrange strain with the given material tangent, transformTangentModuli to the two-point tensor gives the derivative of the PK1 stress with respect to the deformation gradient.", "quantifier": "all materials, deformation gradients and directions", "why_tests_cant": "derivative identity for an arbitrary material", "anchors": ["ikarus/finiteelements/mechanics/materials/materialconversions.hh"]}
{"id": "C74", "title": "Volumetric functions are normalised and minimal at J = 1", "statement": "The second derivative of the volumetric energy at J = 1 is the material parameter passed by the user (times beta^2 for VF7, zero for VF0 and VF12), and the undeformed state J = 1 is the strict global minimum of the energy over all J > 0 for all functions other than VF0 and VF12.", "quantifier": "all J > 0, all parameters", "why_tests_cant": "global minimum over an unbounded interval", "anchors": ["ikarus/finiteelements/mechanics/materials/hyperelastic/volumetric/volumetricfunctions.hh"]}
{"id": "C75", "title": "Deviatoric functions provide energy, stresses and moduli together", "statement": "Whenever the energy of a deviatoric function can be evaluated at positive principal stretches, its stresses and moduli can be evaluated as well (no error, no access out of bounds), for any number of material parameters; a Gent material raises an error for all three exactly when the limiting stretch is reached.", "quantifier": "all positive stretches, all parameters, any number of terms", "why_tests_cant": "any number of terms; tests use at most three", "anchors": ["ikarus/finiteelements/mechanics/materials/hyperelastic/deviatoric/ogden.hh: secondDerivativeImpl", "ikarus/finiteelements/mechanics/materials/hyperelastic/deviatoric/gent.hh: checkJm"]}
{"id": "C76", "title": "Principal moduli are symmetric", "statement": "The tangent moduli in principal directions have major symmetry and equal shear entries (i,k,i,k) and (k,i,k,i), for all deviatoric functions and all positive stretches, however close to each other.", "quantifier": "all positive stretches", "why_tests_cant": "the failing states are those within a relative distance of 1e-8 of each other", "anchors": ["ikarus/finiteelements/mechanics/materials/hyperelastic/deviatoric/interface.hh: tangentModuli"]}
{"id": "C77", "title": "The undeformed configuration is free of energy and stress", "statement": "At unit principal stretches every deviatoric function that could be constructed has zero energy and zero principal stresses.", "quantifier": "all deviatoric functions, all parameters, any number of terms", "why_tests_cant": "any number of terms and exponents", "anchors": ["ikarus/finiteelements/mechanics/materials/hyperelastic/deviatoric/"]}
{"id": "C78", "title": "Deviatoric functions ignore changes of volume and the numbering of principal directions", "statement": "Multiplying all stretches by a positive factor leaves the energy of a function of the deviatoric stretches unchanged, its stresses have no hydrostatic part, and permuting the stretches changes no energy.", "quantifier": "all positive stretches, factors and parameters", "why_tests_cant": "real-valued inputs", "anchors": ["ikarus/finiteelements/mechanics/materials/hyperelastic/deviatoric/", "ikarus/finiteelements/mechanics/materials/materialhelpers.hh: deviatoricStretches, invariants"]}
{"id": "C79", "title": "Truss results are objective and agree with the nodal forces", "statement": "Rotating and moving the deformed truss leaves its energy and its three axial force results unchanged and rotates its nodal forces with it. The force on the second node is the reported Cauchy axial force directed along the deformed bar.", "quantifier": "all geometries, displacements, rotations, translations, dimensions", "why_tests_cant": "all rotations and real-valued displacements", "anchors": ["ikarus/finiteelements/mechanics/truss.hh: calculateAtImpl, calculateVectorImpl, calculateScalarImpl"]}
{"id": "C80", "title": "Numerical material inversion returns moduli of the returned strain", "statement": "The pair returned by numericalMaterialInversion belongs together: the moduli are the inverse of the tangent moduli at the returned strain.", "quantifier": "all materials, stresses, start strains, tolerances and iteration limits", "why_tests_cant": "depends on the whole iteration sequence", "anchors": ["ikarus/finiteelements/mechanics/materials/numericalmaterialinversion.hh"]}
{"id": "C81", "title": "Principal and polar stresses", "statement": "The principal stresses are in descending order, each belongs to a unit direction on which the stress acts normally, the first and the last bound the normal stress in every direction. The polar stresses are the tractions in radial and circumferential direction with respect to the origin; components outside of the admissible range raise an error.", "quantifier": "all stress states, directions, positions and components", "why_tests_cant": "all directions and real-valued inputs", "anchors": ["ikarus/io/resultevaluators.hh: PrincipalStress, PolarStress"]}
{"id": "C82", "title": "Eigenvalue solvers hand out results of a successful computation only", "statement": "eigenvalues() and eigenvectors() answer exactly if the latest compute() returned true and raise an error otherwise; the partial solver can be constructed exactly for 1 <= nev <= n-1 and returns exactly as many eigenvectors as asked for, at most nev.", "quantifier": "all problem sizes, numbers of eigenvalues and histories of computations", "why_tests_cant": "unbounded sizes and all outcomes of the iterative solver", "anchors": ["ikarus/solver/eigenvaluesolver/generalizedeigensolver.hh: GeneralizedSymEigenSolver, PartialGeneralizedSymEigenSolver"]}
{"id": "C83", "title": "Eigenvalue solver for dense matrices checks the sizes", "statement": "Constructing the solver for Eigen's dense matrices raises an error exactly if the matrices are not square of the same size, whether they are passed by reference or as temporaries.", "quantifier": "all pairs of matrices and ways to pass them", "why_tests_cant": "all sizes and value categories", "anchors": ["ikarus/solver/eigenvaluesolver/generalizedeigensolver.hh: GeneralizedSymEigenSolver<EigenValueSolverType::Eigen>", "ikarus/solver/eigenvaluesolver/generalizedeigensolverfactory.hh: makeIdentitySymEigenSolver"]}
{"id": "C84", "title": "The global indices of an element cover its local dofs exactly once", "statement": "The list of global indices of an element contains the global index of every local degree of freedom, each as often as it occurs in the basis tree, for scalar, power and arbitrarily nested composite bases.", "quantifier": "all basis trees and numberings", "why_tests_cant": "arbitrarily nested trees", "anchors": ["ikarus/finiteelements/fehelper.hh: globalIndicesFromLocalView", "ikarus/utils/traversal.hh: forEachLeafOrPowerLeafNode"]}
{"id": "C85", "title": "Hyperelastic materials are isotropic", "statement": "Rotating the right Cauchy-Green tensor leaves the stored energy unchanged and rotates the stresses and the tangent moduli with it; errors and aborts occur for both or for none. The results do not depend on which eigenvectors the eigenvalue solver delivers for repeated eigenvalues.", "quantifier": "all symmetric tensors, rotations, deviatoric and volumetric functions and eigenvalue solvers", "why_tests_cant": "every tensor and every choice of eigenvectors; repeated eigenvalues form a null set that sampling misses", "anchors": ["ikarus/finiteelements/mechanics/materials/hyperelastic/interface.hh: storedEnergyImpl, stressesImpl, tangentModuliImpl, transformDeviatoricStresses, transformDeviatoricTangentModuli", "ikarus/finiteelements/mechanics/materials/materialhelpers.hh: principalStretches"]}
{"id": "C86", "title": "Stresses of hyperelastic materials are twice the derivative of the energy", "statement": "Wherever the stored energy of a hyperelastic material is defined, the stresses are defined and equal twice the derivative of the energy with respect to the right Cauchy-Green tensor, in every symmetric direction, also where eigenvalues coincide.", "quantifier": "all symmetric tensors, directions and material functions", "why_tests_cant": "derivatives at every tensor, repeated eigenvalues included", "anchors": ["ikarus/finiteelements/mechanics/materials/hyperelastic/interface.hh: storedEnergyImpl, stressesImpl, transformVolumetricStresses"]}
{"id": "C87", "title": "Tangent moduli of hyperelastic materials are twice the derivative of the stresses", "statement": "Wherever the stored energy of a hyperelastic material is defined, the tangent moduli are defined and applied to any symmetric direction they give twice the derivative of the stresses in that direction.", "quantifier": "all symmetric tensors, directions and material functions", "why_tests_cant": "derivatives at every tensor, repeated and nearly repeated eigenvalues included", "anchors": ["ikarus/finiteelements/mechanics/materials/hyperelastic/interface.hh: tangentModuliImpl, transformDeviatoricTangentModuli, transformVolumetricTangentModuli", "ikarus/finiteelements/mechanics/materials/hyperelastic/deviatoric/interface.hh: tangentModuli"]}
{"id": "C88", "title": "Tensors whose determinant is not positive are refused", "statement": "Energy, stresses and moduli of a hyperelastic material abort with a message if the determinant of the right Cauchy-Green tensor is not positive; they never continue with such a tensor.", "quantifier": "all symmetric tensors", "why_tests_cant": "all tensors, including those for which floating point arithmetic produces not-a-number values", "anchors": ["ikarus/finiteelements/mechanics/materials/materialhelpers.hh: checkPositiveOrAbort, principalStretches", "ikarus/finiteelements/mechanics/materials/hyperelastic/interface.hh: detF", "ikarus/finiteelements/mechanics/materials/hyperelastic/neohooke.hh"]}
{"id": "C89", "title": "Newton steps with enhanced strains are Newton steps of the coupled equations", "statement": "When elements with enhanced assumed strains are registered with a NewtonRaphson solver, each iteration changes displacements and the elements' internal variables together by a Newton step of the coupled equations for displacements and internal variables (no linearised equation is violated, no internal variable is left behind), and every such step can be reached.", "quantifier": "all meshes, element matrices, Dirichlet flags, start values and numbers of iterations", "why_tests_cant": "depends on the order of messages, updates and assembly in every iteration of every run", "anchors": ["ikarus/finiteelements/mechanics/enhancedassumedstrains.hh: updateStateImpl, calculateMatrixImpl, calculateVectorImpl, subscribeToImpl", "ikarus/solver/nonlinearsolver/newtonraphson.hh: solve"]}
{"id": "C90", "title": "Newton steps with assumed stresses are Newton steps of the coupled equations", "statement": "When elements with assumed stresses are registered with a NewtonRaphson solver, each iteration changes displacements and stress parameters together by a Newton step of the coupled equations, the strains stored at the integration points always belong to the stored stress parameters, initially and after each iteration, and every such step can be reached.", "quantifier": "all meshes, element matrices, material laws, Dirichlet flags, start values and numbers of iterations", "why_tests_cant": "depends on the order of messages, updates and assembly in every iteration of every run", "anchors": ["ikarus/finiteelements/mechanics/assumedstress.hh: updateStateImpl, calculateMatrixImpl, calculateVectorImpl, initializeState, subscribeToImpl", "ikarus/solver/nonlinearsolver/newtonraphson.hh: solve"]}
{"id": "C91", "title": "Internal variables of linear elements do not depend on how they were obtained", "statement": "For linear elements the internal variables stored after a Newton run with at least one iteration satisfy the internal equation at the final displacements and equal the ones that the evaluation of linear stresses recomputes from the displacements.", "quantifier": "all meshes of linear elements, start values and numbers of iterations", "why_tests_cant": "every start value of displacements and internal variables", "anchors": ["ikarus/finiteelements/mechanics/enhancedassumedstrains.hh: calculateAtImpl, updateStateImpl", "ikarus/finiteelements/mechanics/assumedstress.hh: calculateAtImpl, updateStateImpl"]}
{"id": "C92", "title": "Internal variables follow the trust-region solver", "statement": "When elements with internal variables are registered with a TrustRegion solver, the internal variables after an iteration are the condensed update for an accepted step and unchanged for a rejected one, so that a reported success means that the internal equations hold as well.", "quantifier": "all energies, start values, step decisions and numbers of iterations", "why_tests_cant": "depends on which steps are rejected in every run", "anchors": ["ikarus/solver/nonlinearsolver/trustregion.hh: solve", "ikarus/finiteelements/mechanics/assumedstress.hh: subscribeToImpl, updateStateImpl", "ikarus/finiteelements/mechanics/enhancedassumedstrains.hh: subscribeToImpl, updateStateImpl"]}
{"id": "C93", "title": "Load vector in path following with internal variables", "statement": "The subsidiary Newton method uses the derivative of the residual with respect to the load factor as load vector, for every state of the elements' internal variables, so that each correction solves the linearised equations of equilibrium and constraint.", "quantifier": "all states of internal variables, loads and constraints", "why_tests_cant": "every state reached along a path; a wrong vector only slows convergence down", "anchors": ["ikarus/solver/nonlinearsolver/newtonraphsonwithscalarsubsidiaryfunction.hh: solve"]}
{"id": "C94", "title": "Load control with prescribed displacements on linear structures", "statement": "LoadControl with a Newton solver that handles inhomogeneous Dirichlet conditions, on a linear structure with prescribed displacements proportional to the load factor, succeeds in every step, and at the end of each step the prescribed displacements are those of the current load factor and the free dofs are in equilibrium.", "quantifier": "all stiffness matrices, loads, flags, prescribed displacements, step sizes and numbers of steps, DBCOption Full and Reduced", "why_tests_cant": "all structures and load histories; interplay of predictor, linearised forces, update and synchronisation", "anchors": ["ikarus/controlroutines/loadcontrol.inl: run", "ikarus/solver/nonlinearsolver/newtonraphson.hh: solve", "ikarus/solver/nonlinearsolver/nonlinearsolverfactory.hh: updateFunctor", "ikarus/utils/functionhelper.hh: obtainForcesDueToIDBC"]}
{"id": "C95", "title": "A successful load step with prescribed displacements is balanced and has the prescribed displacements", "statement": "If LoadControl reports success then at the end of each load step the residual of the free dofs, evaluated at the current solution and load factor, is below the tolerance of the solver and all prescribed dofs have their prescribed values, for any structure and any dependence of the prescribed displacements on the load factor.", "quantifier": "all structures, prescribed functions, step sizes, listeners and numbers of steps", "why_tests_cant": "all load histories, including steps in which the solver needs no iteration and unloading", "anchors": ["ikarus/controlroutines/loadcontrol.inl: run", "ikarus/solver/nonlinearsolver/newtonraphson.hh: solve", "ikarus/solver/nonlinearsolver/nonlinearsolverfactory.hh: updateFunctor", "ikarus/utils/functionhelper.hh: obtainForcesDueToIDBC"]}
{"id": "C96", "title": "Forces and stiffness of solid elements derive from the element energy", "statement": "At every displacement the vector that a linear or nonlinear elastic element computes is the gradient of the scalar it computes, the matrix is the Jacobian of that vector, and symmetric; vector and matrix are added to what the caller passes.", "quantifier": "all numbers of nodes and dimensions, all integration rules, displacements and hyperelastic materials", "why_tests_cant": "all displacements and materials; difference quotients only sample", "anchors": ["ikarus/finiteelements/mechanics/nonlinearelastic.hh: energyFunction, stressFunction, geometricStiffnessFunction, materialStiffnessFunction, internalForcesFunction", "ikarus/finiteelements/mechanics/linearelastic.hh"]}
{"id": "C97", "title": "Volume and boundary loads derive from their potential", "statement": "The vector of a volume or Neumann boundary load is the gradient of its scalar, does not depend on the displacements, is added to the given vector, and its nodal forces sum up to minus the integral of the load; of the intersections of an element only those on the Neumann boundary contribute.", "quantifier": "all load functions, integration rules, intersections, shape functions and displacements", "why_tests_cant": "all load functions and geometries", "anchors": ["ikarus/finiteelements/mechanics/loads/volume.hh", "ikarus/finiteelements/mechanics/loads/traction.hh"]}
{"id": "C98", "title": "An incompletely specified boundary load has no effect", "statement": "An element whose boundary load lacks the load function or the boundary patch computes no boundary load: the functions return without effect.", "quantifier": "all combinations of missing function and patch", "why_tests_cant": "each combination needs its own instantiation; the code dereferences null only in some of them", "anchors": ["ikarus/finiteelements/mechanics/loads/traction.hh: calculateScalarImpl, calculateVectorImpl"]}
{"id": "C99", "title": "Forces and stiffness of the Kirchhoff-Love shell derive from its energy", "statement": "At every displacement for which the deformed surface has a normal at the integration points, the vector computed by the shell element is the gradient of its scalar and the matrix computed into a zero matrix is the Jacobian of that vector, symmetric; the vector is added to the given one. The moduli it uses at a point are those of plane stress for the metric of the surface there.", "quantifier": "all numbers of nodes, geometries, integration rules, material constants, thicknesses and finite displacements", "why_tests_cant": "all displacements; second derivatives of a normalised cross product are easy to get wrong in a way that only some states show", "anchors": ["ikarus/finiteelements/mechanics/kirchhoffloveshell.hh: calculateScalarImpl, calculateVectorImpl, calculateMatrixImpl, kgBending, bopBending", "ikarus/finiteelements/mechanics/membranestrains.hh"]}
{"id": "C100", "title": "Rigid motions cause neither strains nor energy, and internal forces are self-equilibrated", "statement": "Superposing any rotation and translation on any displacement changes neither the strains nor the energy of a nonlinear solid or shell element; a rigid motion of the undeformed shell causes no forces; in every state the nodal internal forces have no resultant and no moment about any point.", "quantifier": "all finite rotations and translations, displacements, isoparametric elements and materials", "why_tests_cant": "all rotations and deformed states", "anchors": ["ikarus/finiteelements/mechanics/nonlinearelastic.hh", "ikarus/finiteelements/mechanics/kirchhoffloveshell.hh: computeMaterialAndStrains", "ikarus/finiteelements/mechanics/membranestrains.hh: value"]}
{"id": "C101", "title": "An element composed of skills is consistent if its skills are", "statement": "If the vector of every skill of an element is the gradient of its scalar and its matrix the symmetric Jacobian of the vector, then the same holds for the scalar, vector and matrix of the composed element, for any number and order of skills. Beside a skill that replaces the elastic terms the elastic skill adds nothing.", "quantifier": "all lists of skills and displacements", "why_tests_cant": "all combinations of skills", "anchors": ["ikarus/finiteelements/mixin.hh: FEMixin::calculateScalarImpl, calculateVectorImpl, calculateMatrixImpl"]}
{"id": "C102", "title": "The shell element adds its stiffness to the given matrix", "statement": "calculateMatrix of the shell element adds the stiffness to the matrix it is given, whatever that matrix contains.", "quantifier": "all matrices and displacements", "why_tests_cant": "all incoming matrices, in particular the non-symmetric ones that other skills may have left", "anchors": ["ikarus/finiteelements/mechanics/kirchhoffloveshell.hh: calculateMatrixImpl"]}
{"id": "C103", "title": "A copied linear solver solves like the original", "statement": "A copy of a linear solver that has factorised a matrix solves with that matrix; copy assignment, also to itself, keeps the factorisation; move and swap transfer it.", "quantifier": "all solver types and all histories of the copied solver", "why_tests_cant": "all histories of the copied object", "anchors": ["ikarus/solver/linearsolver/linearsolver.hh: copy constructor, operator=, swap, move"]}
{"id": "C104", "title": "A linear solver solves with the last matrix it was given", "statement": "Whatever has been called before, solve returns the solution for the matrix of the most recent compute or factorize, or one of those calls has reported that it does not support the matrix.", "quantifier": "all solver types, all histories of analyzePattern, factorize, compute, solve and assignments, dense and sparse matrices", "why_tests_cant": "all call histories and combinations of solver type and matrix type", "anchors": ["ikarus/solver/linearsolver/linearsolver.hh: SolverImpl::analyzePattern, factorize, compute, solve", "ikarus/solver/linearsolver/linearsolver.cpp: LinearSolverTemplate"]}
{"id": "C105", "title": "A matrix may be changed after it has been factorised", "statement": "What a solver returns does not depend on changes that the caller makes to the matrix after compute returned.", "quantifier": "all solver types, histories and changes", "why_tests_cant": "all interleavings of changes and calls", "anchors": ["ikarus/solver/linearsolver/linearsolver.hh: SolverImpl::compute, solve"]}
{"id": "C106", "title": "Every linear solver that can be made can be used", "statement": "For every solver type the constructor either throws or gives a solver that computes and solves with matrices of the kind its name says. Once the pattern is analysed, any number of matrices can be factorised and systems solved in any order in which every solve has a factorisation before it; none of these calls fails.", "quantifier": "all solver types, matrices and right-hand sides", "why_tests_cant": "all combinations of types and ways to make a solver", "anchors": ["ikarus/solver/linearsolver/linearsolver.cpp: LinearSolverTemplate", "ikarus/solver/linearsolver/linearsolver.hh"]}
{"id": "C107", "title": "Forces and matrices of enhanced assumed strain elements are derivatives of one energy", "statement": "For an enhanced assumed strain element with a hyperelastic material the internal forces and the residual of the internal variables are the gradients of the element's energy with respect to displacements and internal variables, and the stiffness, coupling and internal matrices are their derivatives, symmetric as second derivatives are.", "quantifier": "all numbers of nodes and parameters, geometries, quadrature rules, hyperelastic materials, displacements and internal variables", "why_tests_cant": "a test compares derivatives at finitely many states", "anchors": ["ikarus/finiteelements/mechanics/enhancedassumedstrains.hh: calculateMatrixImpl, calculateVectorImpl, calculateDAndLMatrix, calculateRtilde"]}
{"id": "C108", "title": "Static condensation keeps the element consistent", "statement": "The matrix and vector an enhanced assumed strain element returns are those after elimination of the internal variables: the matrix is the derivative of the forces with the internal variables following their own linearised equation, the solution of the condensed system with the recovered internal variables solves the coupled one, and both are added to what other skills of the element contributed.", "quantifier": "all states, materials, parameters and previous contents of matrix and vector", "why_tests_cant": "all contributions of other skills and all states", "anchors": ["ikarus/finiteelements/mechanics/enhancedassumedstrains.hh: calculateMatrixImpl, calculateVectorImpl"]}
{"id": "C109", "title": "Enhanced strains have the derivatives the elements use", "statement": "For every kind of enhanced strain the value is the strain of the enhanced displacement gradient (or the strain plus the enhancement), and the first and second derivatives with respect to displacements and internal variables that are offered are those of that value.", "quantifier": "all shape functions, modes, geometries, displacements and internal variables in two and three dimensions", "why_tests_cant": "derivatives at all states", "anchors": ["ikarus/finiteelements/mechanics/strainenhancements/easfunctions/linearstrain.hh", "ikarus/finiteelements/mechanics/strainenhancements/easfunctions/greenlagrangestrain.hh", "ikarus/finiteelements/mechanics/strainenhancements/easfunctions/displacementgradient.hh", "ikarus/finiteelements/mechanics/strainenhancements/easfunctions/displacementgradienttransposed.hh"]}
{"id": "C110", "title": "Enhanced assumed strain elements pass the patch test", "statement": "At a displacement field with constant gradient and vanishing internal variables, for a material with any stress law, the internal variables are in equilibrium and the internal forces are those of the element without enhancement, for every number of parameters and any geometry of the element.", "quantifier": "all numbers of parameters, element geometries, constant gradients and materials", "why_tests_cant": "all geometries and all homogeneous states", "anchors": ["ikarus/finiteelements/mechanics/strainenhancements/easvariants/linearandglstrains.hh", "ikarus/finiteelements/mechanics/strainenhancements/easvariants/displacementgradient.hh", "ikarus/finiteelements/mechanics/strainenhancements/easvariants/helperfunctions.hh"]}
{"id": "C111", "title": "The internal variables of enhanced assumed strain elements can be eliminated", "statement": "For every accepted combination of element and number of parameters, with a positive definite material tangent, the matrix of the internal variables is positive definite, so that the condensation never divides by zero.", "quantifier": "all geometries, states, materials with positive definite tangent and numbers of parameters", "why_tests_cant": "all geometries and states; the matrix may degenerate at one combination only", "anchors": ["ikarus/finiteelements/mechanics/enhancedassumedstrains.hh: calculateDAndLMatrix, easApplicabilityCheck", "ikarus/finiteelements/mechanics/strainenhancements/easvariants.hh: createEASType"]}
{"id": "C112", "title": "Forces and matrices of displacement-pressure elements are derivatives of one energy", "statement": "For a displacement-pressure element the vector is the gradient of the element's energy with respect to displacements and pressures, the matrix is its derivative and symmetric, and both are added to what the element had before.", "quantifier": "all numbers of displacement and pressure nodes, shape functions, quadrature rules, hyperelastic materials, bulk moduli other than zero and states", "why_tests_cant": "a test compares derivatives at finitely many states", "anchors": ["ikarus/finiteelements/mechanics/displacementpressure.hh: calculateScalarImpl, calculateVectorImpl, calculateMatrixImpl, DPConstitutiveDriver"]}
{"id": "C113", "title": "A displacement-pressure element behaves like the material it is given", "statement": "The decomposition of a hyperelastic material returns a deviatoric and a volumetric material and a parameter whose combination has the energy, stresses and moduli of the material and fails when it fails; a displacement-pressure element whose pressure is in equilibrium has the energy and stresses of its material.", "quantifier": "all hyperelastic materials, deformations and pressures", "why_tests_cant": "all materials and deformations; tests use one volumetric function only", "anchors": ["ikarus/finiteelements/mechanics/materials/decomposehyperelastic.hh", "ikarus/finiteelements/mechanics/displacementpressure.hh: DPConstitutiveDriver"]}
{"id": "C114", "title": "Assumed stress elements are consistent with one mixed functional", "statement": "For an assumed stress element the internal forces and the residual of the stress parameters are the gradients of one functional of displacements and stress parameters, the blocks of the linearisation are its second derivatives, and after every history of binding and updates the stored strains and moduli are those of the present stress parameters.", "quantifier": "all dimensions, numbers of nodes and stress parameters, strain measures, quadrature rules, hyperelastic materials, states and histories of updates", "why_tests_cant": "a test compares derivatives at finitely many states and runs finitely many histories", "anchors": ["ikarus/finiteelements/mechanics/assumedstress.hh: calculateVectorImpl, calculateMatrixImpl, updateStateImpl, initializeState"]}
{"id": "C115", "title": "Condensing the stress parameters gives the Newton step of the mixed problem", "statement": "The matrix of an assumed stress element is the derivative of its forces along equilibrium of the stress parameters, and if displacements are corrected by the solution of the condensed equations, then displacements and stress parameters were corrected by the Newton step of the complete equations. The element adds its vector and matrix to what it is given.", "quantifier": "all elements, states, corrections and given vectors and matrices", "why_tests_cant": "holds between quantities that the element does not expose, for all states", "anchors": ["ikarus/finiteelements/mechanics/assumedstress.hh: calculateVectorImpl, calculateMatrixImpl, updateStateImpl"]}
{"id": "C116", "title": "The energy an assumed stress element reports belongs to its forces", "statement": "Along states in which the stress parameters are in equilibrium, the reported energy changes with the reported forces; for linear elements the vector is the product of matrix and displacements, whatever the stress parameters are, and after one update the energy is half the product of forces and displacements.", "quantifier": "all materials, displacements, stress parameters and histories", "why_tests_cant": "tests use linear materials after an update", "anchors": ["ikarus/finiteelements/mechanics/assumedstress.hh: calculateScalarImpl, calculateVectorImpl, updateStateImpl"]}
{"id": "C117", "title": "The condensation of an assumed stress element exists", "statement": "For every accepted number of stress parameters (5 in two dimensions; 18, 24 or 30 in three dimensions; others are refused) the matrix that is inverted is positive definite if the geometry is not degenerate at the center and the inverted material is positive definite; natural stresses are transformed to physical space as a tensor.", "quantifier": "all geometries, quadrature rules exact to degree two, materials and stress parameters", "why_tests_cant": "invertibility for all geometries and materials cannot be sampled", "anchors": ["ikarus/finiteelements/mechanics/assumedstress/asvariants.hh", "ikarus/finiteelements/mechanics/assumedstress/asfunctions/linearstress.hh", "ikarus/finiteelements/mechanics/assumedstress.hh: calculateMatrixImpl"]}
{"id": "C118", "title": "Assumed stress elements pass the patch test", "statement": "Every constant stress is among the assumed stresses of every accepted number of parameters, and at displacements with the same gradient everywhere the element has, with stress parameters in equilibrium, the forces of the displacement based element.", "quantifier": "all geometries, displacement gradients, stresses, materials and numbers of parameters", "why_tests_cant": "all geometries and gradients; tests use a few patches", "anchors": ["ikarus/finiteelements/mechanics/assumedstress.hh: calculateVectorImpl", "ikarus/finiteelements/mechanics/assumedstress/asvariants.hh"]}
{"id": "C119", "title": "The principal branch of Lambert's function is computed, or the argument is refused", "statement": "For every argument above -1/e the iteration divides by no zero, its values approach the solution of w exp(w) = z with w >= -1 from one side and converge to it, with enough iterations a value is returned for every positive tolerance, and the error of a returned value is at most three times the tolerance relative to the last iterate. At -1/e, compared with tolerance, -1 is returned; smaller arguments, minus infinity included, are refused.", "quantifier": "all arguments, tolerances and numbers of iterations", "why_tests_cant": "a test evaluates the function at finitely many arguments", "anchors": ["ikarus/utils/lambertw.hh: lambertW0", "ikarus/finiteelements/mechanics/materials/hyperelastic/neohooke.hh: materialInversionImpl"]}
{"id": "C120", "title": "Output files contain the requested fields with the values of the time of writing", "statement": "After any sequence of requests to a writer (results, all results, interpolations; as cell data, point data or both) a written file contains for cells and for points exactly the requested fields in the order of the requests, with the values that results and referenced vectors have when the file is written. The python interface does the same.", "quantifier": "all sequences of requests, tags, results and states at the time of writing", "why_tests_cant": "a test looks at a few files for some tags", "anchors": ["ikarus/io/vtkwriter.hh: addResultFunction, addResult, addAllResults, addInterpolation", "python/ikarus/io/__init__.py: addInterpolation"]}
{"id": "C121", "title": "The control writer writes one file with the solution for every change of the solution", "statement": "For every history of control messages one file is written per change of the solution, numbered consecutively, and it contains one field, the solution at that time.", "quantifier": "all histories of messages", "why_tests_cant": "tests do not read the files", "anchors": ["ikarus/utils/listener/controlvtkwriter.hh: update"]}
{"id": "C122", "title": "Results are evaluated at the element they are asked for", "statement": "The result written for an element of the grid is the result of the finite element that belongs to it, for the state the assembler is bound to at that time, and every component below the reported number of components can be evaluated.", "quantifier": "all grids, elements, components and positions", "why_tests_cant": "tests use grids with a single type of elements", "anchors": ["ikarus/io/resultfunction.hh: evaluate, ncomps, evaluateComponent"]}
{"id": "C123", "title": "A subscribed listener handles every message as long as it exists, and nothing else does", "statement": "For every history of creating, subscribing, copying, moving, unsubscribing and destroying listeners (loggers, writers, elements) and of messages: every existing listener has handled exactly the messages of the broadcasters it has subscribed to, once per subscription, and no function of a destroyed listener is called.", "quantifier": "all histories", "why_tests_cant": "lifetimes depend on the history; use of a destroyed object usually goes unnoticed in a test", "anchors": ["ikarus/utils/listener/listener.hh", "ikarus/utils/listener/nonlinearsolverlogger.hh: subscribeTo", "ikarus/utils/listener/controllogger.hh: subscribeTo", "ikarus/utils/listener/controlvtkwriter.hh: subscribeTo", "ikarus/finiteelements/mechanics/enhancedassumedstrains.hh: subscribeToImpl", "ikarus/finiteelements/mechanics/assumedstress.hh: subscribeToImpl"]}
{"id": "C124", "title": "The elements of a control routine are told every correction once", "statement": "After control routines were made by the factory for a solver and an assembler, every element of the assembler is told every correction of the solver exactly once.", "quantifier": "all element lists, histories before and numbers of control routines", "why_tests_cant": "tests make one control routine per solver", "anchors": ["ikarus/controlroutines/controlroutinefactory.hh: create", "ikarus/finiteelements/mixin.hh: subscribeTo"]}
{"id": "C125", "title": "The table printed for a solve shows the iterations", "statement": "A logger subscribed to a nonlinear solver prints for every solve a header, then one row for each iteration, numbered from 1, with the norm of the residual at the solution, the norm of the correction and the load factor of that iteration, and after a successful solve, and only then, the number of iterations, which is the number of rows. Earlier solves have no influence.", "quantifier": "all problems, settings, histories and other listeners", "why_tests_cant": "output is not compared by tests; a row can show values of another iteration", "anchors": ["ikarus/utils/listener/nonlinearsolverlogger.hh: update", "ikarus/solver/nonlinearsolver/newtonraphson.hh: solve", "ikarus/solver/nonlinearsolver/newtonraphsonwithscalarsubsidiaryfunction.hh: solve", "ikarus/solver/nonlinearsolver/trustregion.hh: solve"]}
{"id": "C126", "title": "A generic listener is called for its message only", "statement": "The function of a GenericListener is called with the state of every message of its kind, once each and in order, and for no other message. For a Newton solve that is once for INIT, once per iteration for the messages of an iteration, and once at the end exactly if the solve succeeded.", "quantifier": "all histories of messages, problems and settings", "why_tests_cant": "tests count calls for one run", "anchors": ["ikarus/utils/listener/genericlistener.hh: updateImpl"]}
{"id": "C127", "title": "Nodes are found by position", "statement": "Visiting the Lagrange nodes of an element calls the function with each local node number and position in order until it asks to stop. The collected positions are those of all nodes. Looking up the indices of a global position throws outside the grid, gives the indices of a node of the element there that lies at the position, throws if there is none, and for the position of a node gives that node's indices.", "quantifier": "all elements, bases and positions", "why_tests_cant": "tests use unit-size elements, where the absolute tolerance cannot pick another node", "anchors": ["ikarus/utils/traversal.hh: forEachLagrangeNodePosition", "ikarus/utils/functionhelper.hh: globalIndexFromGlobalPosition, obtainLagrangeGlobalNodePositions"]}
{"id": "C128", "title": "The flat basis numbers all degrees of freedom consecutively", "statement": "For every pre-basis handed to BasisHandler the flat basis has the same degrees of freedom and dimension as the original one, and gives them the indices 0 to dimension-1, each to exactly one degree of freedom and as a single number. Flattening a flat basis changes nothing.", "quantifier": "all nested bases and index merging strategies", "why_tests_cant": "tests build a few bases; a clash or gap appears only in other nestings", "anchors": ["ikarus/utils/flatprebasis.hh: FlatPreBasis", "ikarus/utils/basis.hh: BasisHandler"]}
{"id": "C129", "title": "The tensor product rule integrates first along the new direction", "statement": "For all quadrature rules the sum of weight times value over the tensor product rule equals what the base rule gives for the results of the one-dimensional rule, for every function; if both rules are exact so is the product. The points are all pairs, those of the one-dimensional rule running fastest.", "quantifier": "all rules and functions", "why_tests_cant": "tests check a few rules and one polynomial", "anchors": ["ikarus/utils/quadraturerulehelper.hh: tensorProductQuadrature"]}
{"id": "C130", "title": "The fitted polynomial is closest to the data", "statement": "polyfit returns deg+1 coefficients such that no polynomial of that degree has a smaller sum of squared distances from the data, together with the distance. Data on a polynomial of that degree are reproduced with error zero if there are at least deg+1 different points.", "quantifier": "all data and degrees", "why_tests_cant": "tests fit a line and a parabola", "anchors": ["ikarus/utils/polyfit.cpp: polyfit"]}
{"id": "C131", "title": "The derivative checks accept right and reject wrong derivatives", "statement": "checkGradient, checkJacobian and checkHessian return true if the derivative is right and false if it is wrong along the direction used, for every function, and with or without drawing.", "quantifier": "all functions, points, directions and flags", "why_tests_cant": "tests use functions with values of order one and switch drawing off", "anchors": ["ikarus/utils/functionsanitychecks.hh: checkGradient, checkJacobian, checkHessian", "ikarus/utils/functionsanitychecks.cpp: drawResultAndReturnSlope"]}
{"id": "C132", "title": "A function made from an assembler gives its forces and stiffness for ever", "statement": "DifferentiableFunctionFactory::op returns a function whose values are energy, forces and stiffness of the assembler with the given affordances and Dirichlet option, or those the assembler is bound to at that time, whatever is bound, destroyed or evaluated later, and throws if the assembler is not bound. This holds however the assembler is passed.", "quantifier": "all assemblers, ways of passing them and later histories", "why_tests_cant": "tests pass lvalues and keep everything alive", "anchors": ["ikarus/utils/differentiablefunctionfactory.hh: op", "ikarus/utils/differentiablefunction.hh: makeDifferentiableFunction"]}
{"id": "C133", "title": "A solver made by the factory works independently of the factory", "statement": "A solver created from settings and a bound assembler evaluates forces and stiffness of that assembler, corrects the solution with the update function of the settings and the numbering of the same assembler, and takes the forces of inhomogeneous boundary conditions from the assembler given for them, whatever happens to the factory and the pointers afterwards.", "quantifier": "all settings, assemblers and later histories", "why_tests_cant": "tests keep factory and pointers in the same scope; use after destruction often goes unnoticed", "anchors": ["ikarus/solver/nonlinearsolver/nonlinearsolverfactory.hh: create, withIDBCForceFunction, updateFunctor, IDBCForceFunction"]}
{"id": "C134", "title": "What a function returned does not change", "statement": "The value returned by a function made from an assembler stays what it was when other points are evaluated.", "quantifier": "all assemblers and later evaluations", "why_tests_cant": "tests use a value before the next evaluation", "anchors": ["ikarus/utils/differentiablefunctionfactory.hh: op", "ikarus/assembler/simpleassemblers.inl: getScalarImpl, getVectorImpl, getMatrixImpl"]}
{"id": "C135", "title": "Automatic differentiation gives what the element computes itself", "statement": "For an element whose energy, forces and stiffness belong together, AutoDiffFE returns the same energy, and the same forces and stiffness in the vector and matrix passed, whichever of the three functions the element implements and whether automatic differentiation is forced or not.", "quantifier": "all elements, displacements and contents of the vector and matrix", "why_tests_cant": "tests compare for elements at some displacements with zero matrices", "anchors": ["ikarus/finiteelements/autodifffe.hh: calculateMatrix, calculateVector, calculateScalar"]}
{"id": "C136", "title": "Stresses and moduli by automatic differentiation are those of the material", "statement": "For a material whose energy, stresses and moduli belong together, AutoDiffMAT returns the stresses and moduli that the material itself returns for the same strain, in each strain measure the material accepts, whether they are computed from the stored energy or from the stresses.", "quantifier": "all materials, symmetric strains, strain measures and ways of differentiating", "why_tests_cant": "tests compare at one strain, given in the measure of the material", "anchors": ["ikarus/experimental/autodiffmat.hh: stresses, tangentModuli", "ikarus/finiteelements/mechanics/materials/interface.hh: storedEnergy, stresses, tangentModuli"]}
{"id": "C137", "title": "Python objects keep alive what they use", "statement": "In Python, after any sequence of creating boundary patches, bases, boundary loads, elements, assemblers, manipulators and writers and of deleting names, every object that still has a name can be used: what its methods read has not been destroyed.", "quantifier": "all sequences of calls and deletions", "why_tests_cant": "scripts in the tests keep all names until they end", "anchors": ["ikarus/python/finiteelements/registerpreelement.hh: registerNeumannBoundaryLoadPre", "ikarus/python/finiteelements/fe.hh: registerFE", "ikarus/python/assembler/flatassembler.hh: registerFlatAssembler", "ikarus/python/assembler/flatassemblermanipulator.hh: registerAssemblerManipulator", "ikarus/python/io/vtkwriter.hh: registerVtkWriter"]}
{"id": "C138", "title": "Looking at a sparse matrix in a Python callback changes nothing", "statement": "In Python, a matrix callback of an assembler manipulator that reads entries of the sparse matrix gets their values, and neither this nor any later matrix of the manipulator changes by it; writing an entry changes this entry only.", "quantifier": "all matrices and entries, all later requests", "why_tests_cant": "tests write entries that are stored and ask for one matrix", "anchors": ["ikarus/python/assembler/flatassemblermanipulator.hh: SparseMatrixWrapper", "ikarus/utils/eigensparseaddon.hh: getLinearIndex", "ikarus/assembler/simpleassemblers.inl: getRawMatrixImpl"]}
{"id": "C139", "title": "An assembler bound in Python evaluates the requirement it was bound to last", "statement": "In Python, an assembler, manipulator or writer evaluates its elements with the solution and load factor that were inserted last into the requirement it was bound to last, whatever was deleted or changed since then, and raises an error if it was never bound or one of them was never inserted.", "quantifier": "all programs of creating, changing, inserting, binding, copying and deleting, all objects", "why_tests_cant": "tests keep the requirement in a variable and evaluate at once", "anchors": ["ikarus/python/finiteelements/registerferequirements.hh: registerFERequirement", "ikarus/python/assembler/flatassembler.hh: registerFlatAssembler", "ikarus/assembler/interface.hh: bind", "ikarus/finiteelements/ferequirements.hh: FERequirements"]}
{"id": "C140", "title": "Python materials have the elastic constants given by keyword", "statement": "A material created in Python from two keyword arguments that are constants of an isotropic elastic material has the Lame constants of that material, whichever of the combinations named as valid is used and in whichever order; any other keywords raise an error.", "quantifier": "all materials, all combinations, orders and numbers of keywords", "why_tests_cant": "continuum of parameters; tests use one or two combinations", "anchors": ["ikarus/python/finiteelements/material.hh: extractMaterialParameters, convertMaterialParameters", "ikarus/finiteelements/physicshelper.hh: ConvertLameConstants"]}
{"id": "C141", "title": "Python material functions do not depend on the strain measure used", "statement": "storedEnergy, stresses and tangentModuli called in Python with the right Cauchy-Green tensor or with the Green-Lagrange strain of the same deformation give the same result, the one of the material at that deformation, with six components and, for plane strain, with three; strain measures that a symmetric vector cannot hold, and linear strains for nonlinear materials, raise an error.", "quantifier": "all materials, deformations, strain tags", "why_tests_cant": "continuum of deformations", "anchors": ["ikarus/python/finiteelements/material.hh: MAKE_MaterialFunction", "ikarus/finiteelements/mechanics/materials/interface.hh: storedEnergy, stresses, tangentModuli", "ikarus/finiteelements/mechanics/materials/strainconversions.hh: transformStrain", "ikarus/finiteelements/mechanics/materials/vanishingstrain.hh: reduceStrain"]}
{"id": "C142", "title": "Options of Python materials take effect", "statement": "The tolerance given to asPlaneStress, asShellMaterial and asBeamMaterial bounds the remaining fixed stresses for every strain, and the keyword arguments compressible and incompressible of Muesli materials select the variant of the material; the material parameters are those passed, in the documented order.", "quantifier": "all materials, strains, tolerances and options", "why_tests_cant": "tests check stresses with a coarse tolerance and one option only", "anchors": ["ikarus/python/finiteelements/material.hh: registerMaterial, registerMuesliMaterial", "ikarus/finiteelements/mechanics/materials/vanishingstress.hh: planeStress, shellMaterial, beamMaterial, reduceStress", "ikarus/finiteelements/mechanics/materials/muesli/mueslimaterials.hh: makeMuesliArrudaBoyce, makeMuesliYeoh, makeMooneyRivlin"]}
{"id": "C143", "title": "Muesli materials are evaluated at the strain passed, independent of history", "statement": "Energy, stresses and moduli returned by a wrapped Muesli material are those of the Muesli model with the parameters given at its creation, at a deformation with the right Cauchy-Green tensor passed (or at the small strain passed), whatever was evaluated before with this material or its copies; a tensor that belongs to no deformation is refused.", "quantifier": "all programs of creating, copying and evaluating; all properties and strains", "why_tests_cant": "hidden state of the material point: all histories; continuum of strains", "anchors": ["ikarus/finiteelements/mechanics/materials/muesli/mueslifinite.hh: FiniteStrain", "ikarus/finiteelements/mechanics/materials/muesli/mueslismall.hh: SmallStrain", "ikarus/finiteelements/mechanics/materials/muesli/mueslihelpers.hh: toistensor, toitensor, toEigenMatrix, toEigenTensor"]}
{"id": "C144", "title": "Vector and matrix form of a result hold the same numbers", "statement": "The vector and the matrix form of an element result list the same components: for symmetric results in Voigt notation without doubled shear components for stresses, otherwise column by column. Converting back and forth changes nothing, and a shape that does not fit the stored numbers, or that is not given for a result of dynamic size, is refused.", "quantifier": "all result types, dimensions, sizes and values", "why_tests_cant": "continuum of values, all dynamic shapes", "anchors": ["ikarus/finiteelements/feresulttypes.hh: ResultWrapper, VectorizeWithVoigt, MatricizeWithVoigt, VectorizeGeneric, MatricizeGeneric", "ikarus/utils/tensorutils.hh: toVoigt, fromVoigt"]}
{"id": "C145", "title": "The tangent of a material with vanishing stresses is the derivative of its stresses", "statement": "The tangent moduli returned by a plane stress, shell or beam material are the derivative of the stresses it returns with respect to the strain components that remain free, and these stresses are the derivative of the energy it returns.", "quantifier": "all wrapped materials, all sets of fixed components, all strains and directions", "why_tests_cant": "continuum of strains; the reduction runs a local Newton iteration whose result the derivative must follow", "anchors": ["ikarus/finiteelements/mechanics/materials/vanishingstress.hh: VanishingStress::tangentModuliImpl, stressesImpl, reduceStress", "ikarus/utils/linearalgebrahelper.hh: staticCondensation"]}
{"id": "C146", "title": "Trust-region steps are at least as good as steepest descent", "statement": "The correction that the trust-region solver takes from its inner solver lowers the quadratic model of the energy at least as much as every step inside the trust region along the (preconditioned) negative gradient; with a random start direction this holds for the first correction with the plain negative gradient.", "quantifier": "all dimensions, gradients, Hessians (also indefinite), preconditioners, radii, start directions", "why_tests_cant": "continuum of quadratic models; the guarantee behind the convergence of the method cannot be sampled", "anchors": ["ikarus/linearalgebra/truncatedconjugategradient.hh: truncated_conjugate_gradient", "ikarus/solver/nonlinearsolver/trustregion.hh: solve (Cauchy point), solveInnerProblem"]}
{"id": "C147", "title": "Assembled forces and matrices derive from the assembled energy", "statement": "For every mesh whose elements are each consistent, the vector that the assembler returns is the gradient of the scalar that it returns, and the matrix is the derivative of the vector and symmetric: for the raw option with respect to all degrees of freedom, for the reduced option with respect to the free ones, for the full option along all motions that leave the constrained ones at rest. The sparse assembler returns the same matrices, whatever was requested before.", "quantifier": "all meshes, sharing of degrees of freedom, constraints, displacements, motions, Dirichlet options, request histories", "why_tests_cant": "continuum of displacements and unbounded meshes; a finite difference test samples one state of one mesh", "anchors": ["ikarus/assembler/simpleassemblers.inl: getScalarImpl, getVectorImpl, getMatrixImpl, getRawMatrixImpl, getReducedMatrixImpl", "ikarus/finiteelements/mixin.hh: calculateScalarImpl, calculateVectorImpl, calculateMatrixImpl", "ikarus/finiteelements/fehelper.hh: localSolutionBlockVector, globalIndices"]}
{"id": "C148", "title": "A structure reported as converged is in equilibrium and its supports have not moved", "statement": "When the Newton-Raphson solver that the factory creates for an assembler (reduced or full Dirichlet option) reports success, the potential energy of the structure is stationary up to the tolerance: along every motion that leaves the supports at rest its derivative is at most the tolerance times the length of the velocity. If the linear systems on the way are solved, constrained degrees of freedom keep their start values.", "quantifier": "all meshes, constraints, materials and elements with consistent skills, start displacements, tolerances, iteration limits, linear solvers, listeners, motions", "why_tests_cant": "needs the assembler, the factory, the update and the solver together for every mesh and every motion", "anchors": ["ikarus/solver/nonlinearsolver/nonlinearsolverfactory.hh: create, updateFunctor", "ikarus/solver/nonlinearsolver/newtonraphson.hh: solve", "ikarus/utils/differentiablefunctionfactory.hh: op", "ikarus/assembler/simpleassemblers.inl"]}
{"id": "C149", "title": "What the truncated conjugate gradient solver reports is true", "statement": "After solving, the error reported is the norm of the residual of the returned solution relative to the right-hand side, Success means that it is at most the tolerance, the number of iterations is that of the iterations made, and the stop reason tells why the iteration ended: residual small enough, boundary of the trust region reached, negative curvature found, or limit of iterations reached.", "quantifier": "all symmetric matrices, right-hand sides, start vectors, preconditioners, tolerances, radii and iteration limits", "why_tests_cant": "every exit of the iteration for a continuum of data and an unbounded number of iterations", "anchors": ["ikarus/linearalgebra/truncatedconjugategradient.hh: truncated_conjugate_gradient, TruncatedConjugateGradient::solve, error, iterations, info, getInfo"]}
{"id": "C150", "title": "A reused element object behaves like a new one", "statement": "An element object with enhanced strains or assumed stresses that was bound to several grid elements, given other numbers of parameters and updated, with any exceptions caught in between, has the same state (modes, integration points, internal variables) as a new object with the number chosen last, bound to the element bound last and updated as often as since then; operations that threw an exception have no effect.", "quantifier": "all histories of operations, elements, integration rules, numbers of parameters and updates", "why_tests_cant": "unbounded histories; a test reuses an object once or twice", "anchors": ["ikarus/finiteelements/febase.hh: bind", "ikarus/finiteelements/mechanics/enhancedassumedstrains.hh: setEASType, bindImpl, updateStateImpl", "ikarus/finiteelements/mechanics/strainenhancements/easvariants.hh", "ikarus/finiteelements/mechanics/assumedstress.hh: setAssumedStressType, bindImpl, updateStateImpl", "ikarus/finiteelements/mechanics/assumedstress/asvariants.hh"]}
{"id": "C151", "title": "Enhanced strains and assumed stresses are refused for elements that do not support them", "statement": "All calculations and updates of the state with enhanced strains are refused with an exception if the element is not one of the supported ones (quadrilaterals with four or nine nodes, hexahedra with eight nodes), and the same for assumed stresses (quadrilaterals with four nodes, hexahedra with eight nodes); they are not refused for supported elements, except energies with enhanced strains, which are always refused. Numbers of stress parameters are accepted exactly if there are modes for them: 5 in two and 18, 24 or 30 in three dimensions.", "quantifier": "all histories of operations, elements and requests", "why_tests_cant": "every sequence of operations can lead to a wrong combination of element and modes", "anchors": ["ikarus/finiteelements/mechanics/enhancedassumedstrains.hh: calculateVector, calculateMatrix, calculateScalar, calculateAt, updateState", "ikarus/finiteelements/mechanics/assumedstress.hh: calculateVector, calculateMatrix, calculateScalar, calculateAt, updateState"]}
{"id": "C152", "title": "The solver for dense generalised eigenvalue problems can be built and says whether it succeeded", "statement": "A solver for dense generalised eigenvalue problems can be built for every pair of square matrices of the same size with memory of the order of the matrices, and for no other pairs; compute() returns true exactly if the eigenvalue problem was solved, and eigenvalues and eigenvectors are then those of the latest computation and refused before the first one.", "quantifier": "all sizes, fixed and dynamic matrix types, all outcomes of Eigen's solver and histories of computations", "why_tests_cant": "unbounded sizes and histories, failures of the iterative solver do not occur in tests", "anchors": ["ikarus/solver/eigenvaluesolver/generalizedeigensolver.hh: GeneralizedSymEigenSolver (Eigen)"]}
{"id": "C153", "title": "The log of a control routine shows its steps", "statement": "A logger subscribed to a control routine prints for every run the name of the routine, then every step, in order and with its number and the step size it was done with, and at the end the total number of iterations, which is the sum over all solves.", "quantifier": "all solvers, problems, numbers of steps, step-sizing rules, outcomes and other listeners", "why_tests_cant": "output is not compared by tests; adaptive sizes and failing runs are not logged in tests", "anchors": ["ikarus/utils/listener/controllogger.hh: update", "ikarus/utils/listener/controllogger.cpp", "ikarus/controlroutines/loadcontrol.inl: run", "ikarus/controlroutines/pathfollowing.inl: run"]}
{"id": "C154", "title": "Every load step reported as solved is in equilibrium with its loads", "statement": "Load control of a structure: for every step, the solution the listeners see at its end belongs to the load factor start + k (tEnd - tBegin) / steps, and if the solver reported success for the step then the virtual work of every virtual displacement that respects the supports, at that load factor, is at most the tolerance times its length. After a successful run from tBegin the solution is in equilibrium with the loads at tEnd. The supported dofs keep their values in all steps.", "quantifier": "all structures, materials, loads depending on the load factor in any way, numbers of steps, start values, listeners and both treatments of the supports", "why_tests_cant": "tests compare final displacements of a few structures with stored values", "anchors": ["ikarus/controlroutines/loadcontrol.inl: run", "ikarus/solver/nonlinearsolver/newtonraphson.hh: solve", "ikarus/solver/nonlinearsolver/nonlinearsolverfactory.hh: create", "ikarus/assembler/simpleassemblers.hh"]}
{"id": "C155", "title": "Path following can be used with full and with reduced systems", "statement": "A path-following run of a supported structure with the arc-length, load-control or displacement-control function adds, multiplies and assigns only vectors of fitting sizes and accesses only existing entries, whether the assembler is bound for full or reduced systems, for every number of iterations in every step and whether or not the object has been used before.", "quantifier": "all structures, functions, controlled dofs, iteration counts and numbers of steps", "why_tests_cant": "tests run load and displacement control as path following only with systems of full size; a mismatch may go unnoticed without assertions", "anchors": ["ikarus/controlroutines/pathfollowing.inl: run", "ikarus/controlroutines/pathfollowingfunctions.hh", "ikarus/solver/nonlinearsolver/newtonraphsonwithscalarsubsidiaryfunction.hh: solve", "ikarus/solver/nonlinearsolver/nonlinearsolverfactory.hh: updateFunctor"]}
{"id": "C156", "title": "Every arc-length step reported as solved is an equilibrium point at the wanted distance", "statement": "Path following with the arc-length function from an equilibrium at load factor zero: every step whose solve reports success ends at a solution and load factor in equilibrium, and its distance sqrt(|dx|^2 + (psi dlambda)^2) from the end of the step before equals the step size that the step-size rule asks for, both up to the tolerance and with one scaling factor psi for the whole run.", "quantifier": "all residuals and structures, linear solvers, listeners, step-size rules, step sizes, numbers of steps and iteration limits", "why_tests_cant": "tests compare the final load factor and displacements of a few examples; the distances are not looked at, and step-size rules are tested apart from the solver", "anchors": ["ikarus/controlroutines/pathfollowing.inl: run", "ikarus/controlroutines/pathfollowingfunctions.hh: ArcLength", "ikarus/solver/nonlinearsolver/newtonraphsonwithscalarsubsidiaryfunction.hh: solve", "ikarus/controlroutines/adaptivestepsizing.hh"]}
{"id": "C157", "title": "Hyperelastic materials linearise to linear elasticity with the moduli of their parameters", "statement": "The moduli of a material from the factory functions at the undeformed state are those of isotropic linear elasticity. The shear modulus is mu (Blatz-Ko, Gent, Arruda-Boyce), half the sum of mu_i alpha_i (Ogden), 2 (mu_0 + mu_1) (Mooney-Rivlin), 2 mu_0 (Yeoh); K is the bulk modulus for functions of deviatoric stretches and Lame's first parameter for Ogden with total stretches (zero for VF0, K beta^2 for VF7); Blatz-Ko has Poisson's ratio 1/4. Exponents that are both zero are refused. The energies are those of the literature: Yeoh's is mu_0 w + mu_1 w^2 + mu_2 w^3 with w = the first invariant of the deviatoric stretches minus 3, and so on; Gent's is refused from its limit on. The energy of Arruda-Boyce has the first five terms of the inverse Langevin function as its derivative.", "quantifier": "all parameters, numbers of terms, volumetric functions, and all eigenbases the eigenvalue solver may choose", "why_tests_cant": "tests check derivatives of the energy against each other and compare a few numbers, which stay consistent when a coefficient of the energy is wrong", "anchors": ["ikarus/finiteelements/mechanics/materials/hyperelastic/factory.hh", "ikarus/finiteelements/mechanics/materials/hyperelastic/interface.hh: tangentModuli", "ikarus/finiteelements/mechanics/materials/hyperelastic/deviatoric/arrudaboyce.hh", "ikarus/finiteelements/mechanics/materials/hyperelastic/deviatoric/interface.hh"]}
{"id": "C158", "title": "Reduced materials give the same stresses and tangents in matrix form as in Voigt form", "statement": "Whether stresses and tangent moduli of a plane-strain, plane-stress or beam material are asked for in Voigt or in matrix form, the results are representations of the same tensors.", "quantifier": "all wrapped materials, strain measures, strains and sets of fixed components", "why_tests_cant": "the tests of reduced materials ask for Voigt results only", "anchors": ["ikarus/finiteelements/mechanics/materials/vanishingstrain.hh", "ikarus/finiteelements/mechanics/materials/vanishingstress.hh"]}
{"id": "C159", "title": "A trust-region solve lowers the energy of a structure, leaves its supports at rest and reports the true residual", "statement": "For a trust-region solver made by the factory for an assembler (reduced or full Dirichlet option): the solve ends, the potential energy at the end is at most that at the start (plus 2e-12 per iteration), the reported residual norm times the length bounds the virtual work of every virtual displacement that respects the supports and is below the gradient tolerance if that stopped the solve, and constrained degrees of freedom keep their start values in every solution that listeners see, rejected steps included.", "quantifier": "all meshes, elements, boundary conditions, settings, start values and numbers of iterations", "why_tests_cant": "the tests minimise small functions without supports or compare single displacements", "anchors": ["ikarus/solver/nonlinearsolver/trustregion.hh", "ikarus/solver/nonlinearsolver/nonlinearsolverfactory.hh", "ikarus/utils/differentiablefunctionfactory.hh", "ikarus/linearalgebra/truncatedconjugategradient.hh"]}
{"id": "C160", "title": "A structure with internal variables that is reported as converged is in equilibrium, internal variables included", "statement": "If the Newton solver reports success for a structure of enhanced assumed strain or assumed stress elements that are subscribed to it, then with the final displacements and the final internal variables the assembled forces of the elements are within the tolerance and the internal equations of all elements are fulfilled. This holds for linear elements after at least one iteration, and where the internal equations hold the tested residual is the plain force vector. It does not hold in general: the tested residual is condensed with the linearised internal equation, so that a state can be accepted in which neither the forces nor the internal equations vanish, and internal variables that do not belong to the displacements at the start are accepted without an iteration. The internal equation is violated after a step by at most half the change of its derivative along the step.", "quantifier": "All fields, meshes, elements (abstract integration loops), supports, starts, solver settings and numbers of iterations; over the reals all enhanced strains, materials, quadrature points and steps for the bound.", "why_tests_cant": "Tests compare converged displacements or iteration counts of a few structures; the internal equations are private to the elements, and only a proof over all elements shows when the accepted residual can hide an internal defect.", "anchors": ["ikarus/finiteelements/mechanics/enhancedassumedstrains.hh:225-248", "ikarus/finiteelements/mechanics/enhancedassumedstrains.hh:312-359", "ikarus/finiteelements/mechanics/assumedstress.hh:205-227", "ikarus/finiteelements/mechanics/assumedstress.hh:320-352", "ikarus/solver/nonlinearsolver/newtonraphson.hh:193-257"]}
{"id": "C161", "title": "The reactions of a structure in equilibrium balance its loads, in force and in moment", "statement": "The vector assembled without Dirichlet reduction has, at every displacement, the resultant and the moment of the applied loads: the elastic forces of the elements contribute neither, whatever the mesh, the numbering of the dofs and the supports. If the Newton solver reports success, the entries at the constrained dofs (the reactions) therefore balance the loads, in every direction up to the tolerance times the square root of the number of nodes, and in moment up to the tolerance times the root of the squared places. Trusses, nonlinear solids and shells balance in the current configuration, linear solids in the initial one; volume loads act with their integrated value at their integration points.", "quantifier": "All meshes and numberings of nodes and dofs, all dimensions, supports, loads, start vectors, solver settings and linear solvers, for elements composed of an elastic skill and any number of load skills.", "why_tests_cant": "Tests compare displacements or single forces of a few structures; that the sum over all reactions matches the load for every mesh and numbering depends on element, assembler, constraint handling and solver together.", "anchors": ["ikarus/assembler/simpleassemblers.inl:15-83", "ikarus/finiteelements/mechanics/linearelastic.hh:386-406", "ikarus/finiteelements/mechanics/nonlinearelastic.hh:411-430", "ikarus/finiteelements/mechanics/truss.hh:215-221", "ikarus/finiteelements/mechanics/loads/volume.hh:80-115", "ikarus/solver/nonlinearsolver/newtonraphson.hh:193-257"]}
{"id": "C162", "title": "A linear structure is solved in one step and its solution has the least potential energy", "statement": "For a structure whose matrix is the same in all states (linear solids under volume and boundary loads are) the assembled forces are affine and the assembled energy is exactly quadratic in the displacements; the form of the matrix is twice the elastic energy, so it is never negative for materials with positive semidefinite moduli, and with definite moduli displacements with vanishing form have no strains. Then a state in equilibrium has the least energy among all states with the same supports, two such states differ only by motions without elastic energy, the elastic energy is half the work of the loads if the supports do not move, the solution reported by the Newton solver is within tolerance times distance of the least energy, and a single Newton step whose linear system is solved reaches equilibrium from every start, with the reduced as well as with the full system.", "quantifier": "All meshes, dofs, supports, states, admissible motions, materials with symmetric semidefinite moduli, quadrature rules with nonnegative weights, solver settings and linear solvers.", "why_tests_cant": "Tests check a few linear problems after a solve; minimality compares with infinitely many states, and exactness of one step for every mesh, support and start needs the composition of element, assembler, update function and solver.", "anchors": ["ikarus/assembler/simpleassemblers.inl:15-130", "ikarus/finiteelements/mechanics/linearelastic.hh:354-406", "ikarus/finiteelements/mechanics/loads/volume.hh:60-115", "ikarus/utils/differentiablefunctionfactory.hh:25-60", "ikarus/solver/nonlinearsolver/nonlinearsolverfactory.hh:30-60"]}
{"id": "C163", "title": "Plane stress materials return the strain and the compliance of a given plane stress", "statement": "The material inversion of a plane stress material returns strains whose plane stress is the given one, and an inverse modulus that inverts the tangent modulus of the plane stress material there. For St.Venant-Kirchhoff and linear elasticity strain and inverse modulus are those of plane stress elasticity (1/E and -nu/E, shear 2(1+nu)/E), the inverse modulus inverts the tangent modulus at every strain, and the stress comes back within the tolerance of the stress reduction times |lambda/(lambda+2mu)|. For Neo-Hooke with mu positive and lambda not negative the stress comes back exactly whenever the stress reduction leaves no thickness stress, since the thickness strain is determined by the strains in the plane.", "quantifier": "all plane stresses, all admissible parameters, tolerances and strains", "why_tests_cant": "Tests invert a handful of stresses; agreement of two different procedures (block of the three-dimensional compliance, condensation of the modulus at an iterated state) for all stresses and parameters is an algebraic fact.", "anchors": ["ikarus/finiteelements/mechanics/materials/vanishingstress.hh:144-158", "ikarus/finiteelements/mechanics/materials/vanishingstress.hh:117-125", "ikarus/finiteelements/mechanics/materials/interface.hh:264-285", "ikarus/finiteelements/mechanics/materials/neohooke.hh:164-186", "ikarus/finiteelements/mechanics/materials/svk.hh:183-190"]}
{"id": "C164", "title": "Load cases of a linear structure superpose and are reciprocal", "statement": "For a mesh of linear elastic solids the displacements, strains, stresses and assembled forces of load cases may be combined: if the loads of a third case are a times those of a first and b times those of a second case, then a times the first plus b times the second displacements have a times the first plus b times the second strains, stresses, internal forces and support reactions, and are in equilibrium with the third case whenever the first two are in equilibrium with theirs. Loads that are proportional to the load factor cause displacements and reactions that are proportional to it. With homogeneous supports the loads of one case do the same work on the displacements of a second case as the loads of the second on those of the first (Betti).", "quantifier": "all meshes, materials with symmetric non-negative moduli, quadratures, load functions, load factors, supports and combinations", "why_tests_cant": "Designs are checked by combining a few computed load cases; a test compares single combinations on single meshes, and a load entering with a wrong factor in one element type, or a slightly unsymmetric matrix, stays within tolerances.", "anchors": ["ikarus/finiteelements/mechanics/linearelastic.hh:354-406", "ikarus/finiteelements/mechanics/loads/volume.hh:60-115", "ikarus/assembler/simpleassemblers.inl:15-83"]}
{"id": "C165", "title": "Interpolated fields have the components of their basis", "statement": "When coefficients are written as an interpolated field of a basis or a subspace basis, the values of the field have one place for every scalar function of that basis, in the order of the basis, and the written field announces exactly that number of components. This holds for scalar and vector bases, single components of a vector basis and the parts of a composite basis. It fails for a single component of a vector that is part of a composite basis (the first displacement of a displacement-pressure basis is announced as a vector), and for a composite of parts with different numbers of components.", "quantifier": "all basis trees of scalar, power and composite bases and all paths of subspaces", "why_tests_cant": "The types are computed by template specialisations from the tree of the basis; tests instantiate one power basis and one of its components, while the trees and paths are unbounded.", "anchors": ["ikarus/io/vtkcontainertypes.hh:20-84", "ikarus/io/vtkwriter.hh:113-141"]}
{"id": "C166", "title": "Full and reduced systems lead through the same states", "statement": "A Newton-Raphson solver made for an assembler bound with the full Dirichlet option and one made for the same structure with the reduced option go, from the same start, through the same solutions with the same residual norms, correction norms, numbers of iterations and success, and tell their listeners the same messages with the same values; the correction of the full system is the one of the reduced system with zeros at the supports. Required is that the matrix of the free degrees of freedom is regular in the states on the way and that the linear systems are solved.", "quantifier": "all meshes, supports, starts, settings, listeners and linear solvers that solve their systems", "why_tests_cant": "Tests compare results of both options on a few structures; that two differently sized sequences of linear solves and updates agree step by step for all structures is a simulation argument.", "anchors": ["ikarus/solver/nonlinearsolver/nonlinearsolverfactory.hh:30-60", "ikarus/solver/nonlinearsolver/newtonraphson.hh:193-257", "ikarus/utils/differentiablefunctionfactory.hh:25-60", "ikarus/assembler/simpleassemblers.inl:15-130"]}
{"id": "C167", "title": "Results do not depend on the order of elements, and renumbered structures have renumbered results", "statement": "The assembler answers every request (scalar, vector, matrix; raw, reduced, full) identically for every order of the elements in its container, and a Newton solver for the structure runs identically. If the degrees of freedom are numbered differently, the energy stays the same and forces and matrices, for every Dirichlet option, are found at the new numbers.", "quantifier": "all meshes, permutations of elements, renumberings, supports and states", "why_tests_cant": "Containers are filled by traversing a grid in one order and one numbering, so tests see only these; independence of all orders and numberings is a statement about permutations.", "anchors": ["ikarus/assembler/simpleassemblers.inl:15-130", "ikarus/assembler/simpleassemblers.inl:285-330", "ikarus/finiteelements/fehelper.hh:27-46", "ikarus/finiteelements/fehelper.hh:145-199"]}
{"id": "C168", "title": "Structures of solid elements pass the patch test", "statement": "If the nodes of a structure of displacement-based solid elements are displaced by an affine field of their places, every element of whatever shape reports the strain of that field at every integration point, the assembled forces are those of one uniform stress, and they vanish at the nodes inside the structure; so the affine field is in equilibrium when the other nodes are supported. For linear solids with a positive definite material every equilibrium state with these supports has exactly this uniform strain, and one Newton step with a solved linear system from any state with these supports reaches it.", "quantifier": "all meshes of one, two or three dimensions, shapes and numbers of nodes of elements, materials, affine fields, supports and start states", "why_tests_cant": "A test runs one patch of a few distorted elements with one field; that every patch passes is what convergence of the method rests on and quantifies over all meshes.", "anchors": ["ikarus/finiteelements/mechanics/linearelastic.hh:160-330", "ikarus/finiteelements/mechanics/nonlinearelastic.hh:160-330", "ikarus/assembler/simpleassemblers.inl:15-130", "ikarus/solver/nonlinearsolver/newtonraphson.hh:193-257"]}
{"id": "C169", "title": "Corrections and views of vectors of manifold points reach the right points", "statement": "Adding a correction to a vector of points (also of points on manifolds such as directors) corrects every point by its own segment of the correction and no other; in a tuple of such vectors every member gets its own consecutive part. Subtracting the same correction restores the vector if it does so for single points. A correction of the wrong size is refused. The views of such a vector as a flat vector or as a matrix with one row or one column per point show every coordinate of every point exactly once, and writing to a view changes exactly that coordinate.", "quantifier": "all vectors and tuples, point types with any sizes, corrections and views", "why_tests_cant": "The position of a segment depends on the sizes of everything before it; tests use one or two shapes, and sizes that do not fit are not tested.", "anchors": ["ikarus/utils/linearalgebrahelper.hh:47-248"]}
{"id": "C170", "title": "Diagonal matrices mix correctly with full matrices", "statement": "Products, sums and negatives of diagonal matrices, and sums of full and diagonal matrices from either side, have the values of the same operations on full matrices; operands of different shapes are refused. The symmetric and skew part of a square matrix are symmetric and skew, add up to the matrix and are the only such parts.", "quantifier": "all sizes and values of the matrices", "why_tests_cant": "Tests use one size with a few numbers; shapes that do not fit are not tested.", "anchors": ["ikarus/utils/linearalgebrahelper.hh:295-436"]}
{"id": "C171", "title": "What the listeners of a Newton solver are told is what happens", "statement": "Every listener first hears the start values, with infinite norms and no iterations. In every iteration it hears the current solution with its residual norm, then the correction and its norm before the solution changes, then the new solution, then the new residual norm, and then the number of completed iterations; all these are the values of the Newton sequence from the start. In the end it hears the result, exactly if the solver reports success. The flag for success that is told is the outcome, and the residual norm that is told is the one that decides on convergence.", "quantifier": "all residuals, matrices, linear solvers, update functions, settings, start values, boundary conditions and listeners that do not change the problem", "why_tests_cant": "Tests look at the messages, and at most at the final values; the content depends on what is updated before which notification.", "anchors": ["ikarus/solver/nonlinearsolver/newtonraphson.hh:187-257", "ikarus/solver/nonlinearsolver/nonlinearsolverstate.hh:20-60"]}
{"id": "C172", "title": "What the listeners of the trust-region solver are told is what happens", "statement": "Every listener first hears the start values. In every iteration it hears the solution, then the proposed correction with its norm and the proposed solution, then, if the proposal is accepted, the new norms and the new solution, and at the end of the iteration the solution it ends with, with no correction if the proposal is rejected. In the end it hears the result with the norm of its gradient, the norm of the last proposal and the number of iterations, exactly if the solver reports success. The norms and counts told are those of the solution told with them.", "quantifier": "all energies, vector spaces, inner solvers, settings and start values", "why_tests_cant": "Tests look at the messages and at the final values; the content depends on what is updated before which notification.", "anchors": ["ikarus/solver/nonlinearsolver/trustregion.hh:233-428", "ikarus/solver/nonlinearsolver/nonlinearsolverstate.hh:20-60"]}
{"id": "C173", "title": "Results do not depend on the coordinate system", "statement": "Describe the same structure in two Cartesian coordinate systems: turn (or mirror) the places of the nodes and the displacements. Then trusses and solids of every isotropic material give the same energy, and their forces and stiffness matrices are the turned ones; the results of a truss (axial force, stresses) are the same, and volume loads with the turned load function give the turned forces. This holds for each element and for the forces and the matrix the assembler puts together from any number of elements, whatever the numbering. In particular a node is in equilibrium with given loads in one coordinate system exactly if it is in equilibrium with the turned loads in the other.", "quantifier": "for all dimensions up to three, all rotations and reflections, all meshes of trusses and solids, all displacements, all isotropic materials with differentiable energy (linear elastic, St.Venant-Kirchhoff, hyperelastic with deviatoric and volumetric part), all quadrature rules and numberings", "why_tests_cant": "Tests are run in one coordinate system, with elements mostly along the axes; that no entry of a matrix treats a direction differently from the others can only be seen for all rotations at once.", "anchors": ["ikarus/finiteelements/mechanics/nonlinearelastic.hh: calculateMatrixImpl, calculateVectorImpl, calculateScalarImpl", "ikarus/finiteelements/mechanics/linearelastic.hh: calculateMatrixImpl, calculateVectorImpl, calculateScalarImpl", "ikarus/finiteelements/mechanics/truss.hh: calculateAtImpl, calculateMatrixImpl, calculateVectorImpl, calculateScalarImpl", "ikarus/assembler/simpleassemblers.inl: getScalarImpl, getVectorImpl, getMatrixImpl"]}
{"id": "C174", "title": "A Newton solver goes through the same states whatever coordinates, numbering and units a structure is described in", "statement": "Describe the same structure twice: in two coordinate systems, with two numberings of the degrees of freedom, or in two systems of units for lengths and forces. Newton's method started from the same displacements goes through the same displacements in both descriptions, takes the same number of iterations, ends with the same success, and reports norms of residuals and corrections which differ only by the factors between the units. For this the tolerance has to be converted like a force: with the same number as tolerance the solver can stop at another state.", "quantifier": "for all structures, rotations and reflections, renumberings, factors between units, start displacements, limits of iterations, tolerances and linear solvers which solve the systems at the states reached", "why_tests_cant": "A test runs one description. That a convergence check is not invariant under a change of units shows only if the same problem is solved in both.", "anchors": ["ikarus/solver/nonlinearsolver/newtonraphson.hh: solve", "ikarus/assembler/simpleassemblers.inl: getVectorImpl, getMatrixImpl", "ikarus/solver/nonlinearsolver/nonlinearsolverfactory.hh: create", "ikarus/finiteelements/mechanics/truss.hh: calculateScalarImpl", "ikarus/finiteelements/mechanics/nonlinearelastic.hh: calculateScalarImpl"]}
{"id": "C175", "title": "In Python, an assembler uses the internal variables of its elements as last updated", "statement": "Calling updateState on a Python element (to carry the enhanced strains or assumed stresses along with the displacements) takes effect in what the assemblers, assembler manipulators and writers made from the element compute afterwards, so that the solution found by a Newton iteration which updates all elements is an equilibrium with the internal variables the elements then have.", "quantifier": "for all sequences of calls which make elements, update them and make assemblers, manipulators and writers, in any order, for all elements and all ways updateState changes an element", "why_tests_cant": "The tests check that the iteration reports success, which it does as well with internal variables that never change; with few load steps and small strains the numbers hardly differ.", "anchors": ["ikarus/python/assembler/flatassembler.hh: registerFlatAssembler", "ikarus/python/finiteelements/fe.hh: registerFE", "ikarus/python/assembler/flatassemblermanipulator.hh: registerAssemblerManipulator", "ikarus/python/io/vtkwriter.hh: registerVtkWriter", "ikarus/python/test/helperfunctions.py: updateAllElements, solveWithNewtonRaphson"]}
{"id": "C176", "title": "fixBoundaryDOFs fixes exactly the degrees of freedom on the selected parts of the boundary", "statement": "After dirichletValues.fixBoundaryDOFs(f) the fixed degrees of freedom are those fixed before and those which lie on a part of the boundary for which f fixes them, in whatever order the grid lists elements and intersections and however many intersections meet at the degree of freedom. Degrees of freedom in the interior keep their flags. The three signatures of f (global index; local index and local view; additionally the intersection) agree with each other in C++ and in Python, functions with other signatures are refused without changing a flag, and fixing the boundary for every subspace basis is the same as fixing it for the whole basis. A function that assigns its condition to the flag may lose degrees of freedom at corners, and in Python a parameter with a default value makes the function be called with local indices.", "quantifier": "for all grids, bases, tree paths, conditions, flags set before and orders of elements and intersections", "why_tests_cant": "A test uses one grid with one numbering, and a condition which holds on one side of it; what happens at corners depends on the order in which a grid lists its elements.", "anchors": ["ikarus/utils/dirichletvalues.hh: fixBoundaryDOFs", "ikarus/python/dirichletvalues/dirichletvalues.hh: forwardCorrectFunction", "python/ikarus/dirichlet_values.py: dirichletValues"]}
{"id": "C177", "title": "The full stress results contain the stress results in the plane", "statement": "For an element with a plane material, calculateAt<linearStressFull> or calculateAt<PK2StressFull> gives the six components of the three-dimensional stress state of the body: its components 11, 22 and 12 are those which calculateAt<linearStress> or calculateAt<PK2Stress> gives, and the components which the material makes vanish are zero up to the tolerance. With a three-dimensional material both results are the same six components. For plane stress materials this is false: the full result is computed as if the thickness did not change.", "quantifier": "for all strains, all underlying materials, all tolerances, displacement elements, enhanced strain and assumed stress elements", "why_tests_cant": "The tests evaluate the full stresses for plane strain at a few points; for plane stress the two results differ by an amount that depends on the strain and on Poisson's ratio, and agree for zero Poisson's ratio.", "anchors": ["ikarus/finiteelements/mechanics/linearelastic.hh: calculateStress, calculateAtImpl", "ikarus/finiteelements/mechanics/nonlinearelastic.hh: calculateAtImpl", "ikarus/finiteelements/mechanics/enhancedassumedstrains.hh: calculateAtImpl", "ikarus/finiteelements/mechanics/assumedstress.hh: calculateAtImpl, enlargeStressAnsatz", "ikarus/utils/linearalgebrahelper.hh: enlargeIfReduced"]}
{"id": "C178", "title": "Kirchhoff and Cauchy stress results are those of the deformed body", "statement": "calculateAt<kirchhoffStress> and calculateAt<cauchyStress> of a nonlinear solid give F S F^T and F S F^T / det F of the three-dimensional deformation of the body and its second Piola-Kirchhoff stress: the whole tensors with three-dimensional materials, their components in the plane with plane strain and plane stress. For the Cauchy stress with plane stress this is false: it is too large or too small by the factor of the thickness stretch.", "quantifier": "for all displacement gradients and all underlying materials", "why_tests_cant": "Tests compare with values computed by the same conversion of 2x2 matrices, for which the thickness does not appear; the error is proportional to the change of thickness and small for small strains.", "anchors": ["ikarus/finiteelements/mechanics/nonlinearelastic.hh: calculateAtImpl", "ikarus/finiteelements/mechanics/enhancedassumedstrains.hh: calculateAtImpl", "ikarus/finiteelements/mechanics/materials/stressconversions.hh: transformStress"]}
{"id": "C179", "title": "An element offers exactly the results it can compute, each once, under its name", "statement": "calculateAt<RT> of an element compiles exactly for the result types of its solid or truss skill; with an enhanced strain or assumed stress skill that skill answers instead of the solid, in whatever order the skills are listed and whatever loads are added; the returned vector is always written. In Python a name gives the result of the type with this name, and other names raise NotImplemented. addAllResults and addResult add every result once. This fails for the full stresses of assumed stress elements with three-dimensional materials, for nonlinear solids with a linear enhancement, and enhanced elements list every result twice.", "quantifier": "for all lists of skills, result types and names", "why_tests_cant": "Which function is called is decided by overload resolution for every combination of skills; tests instantiate a few of the combinations, and memory that was never written often holds plausible values.", "anchors": ["ikarus/finiteelements/mixin.hh: SupportedResultTypes, calculateAt", "ikarus/finiteelements/feresulttypes.hh: ResultTypeBase", "ikarus/finiteelements/mechanics/enhancedassumedstrains.hh: calculateAtImpl", "ikarus/finiteelements/mechanics/assumedstress.hh: calculateAtImpl", "ikarus/python/finiteelements/fe.hh: registerCalculateAt", "ikarus/io/vtkwriter.hh: addAllResults", "ikarus/python/io/vtkwriter.hh: addResult"]}
{"id": "C180", "title": "Displacement-pressure elements with plane materials compute the stresses of the plane body", "statement": "An element with the displacement-pressure skill and a plane strain or plane stress material has, at a strain and a pressure, the energy and stresses of the body made of the given material at this pressure, with vanishing thickness strain (plane strain) or with the one thickness strain for which the thickness stress of the whole material vanishes (plane stress). In particular calculateAt<PK2Stress> depends on the pressure. For plane stress this is false: the pressure has no effect on the stresses.", "quantifier": "for all strains and pressures, all deviatoric and volumetric parts and all tolerances", "why_tests_cant": "The elements are tested with three-dimensional and plane strain materials; with plane stress the returned stresses are smooth functions of the strain, and the derivatives of the element pass every consistency check.", "anchors": ["ikarus/finiteelements/mechanics/materials/decomposehyperelastic.hh: decomposeHyperelasticAndGetMaterialParameters", "ikarus/finiteelements/mechanics/displacementpressure.hh: DisplacementPressureConstitutiveDriver, calculateStress, calculateAtImpl", "ikarus/finiteelements/mechanics/materials/vanishingstress.hh: reduceStress"]}
{"id": "C181", "title": "A flat Kirchhoff-Love shell is a plane stress sheet and a Kirchhoff plate", "statement": "For a Kirchhoff-Love shell whose reference surface is a part of the plane, and displacements in this plane, calculateScalar returns the thickness times the energy of the two-dimensional nonlinear element with planeStress(StVenantKirchhoff), calculateVector its forces and no normal forces, and calculateMatrix its stiffness without coupling to the normal displacements. In the undeformed shell the stiffness of the normal displacements is the bending stiffness of the Kirchhoff plate, with h^3/12 times the plane stress moduli. The nodes, quadrature and parametrisation of the surface do not matter.", "quantifier": "for all thicknesses, positive Young's moduli, Poisson numbers between -1 and 1/2, numbers of nodes, integration points, parametrisations of the plane and displacements in the plane", "why_tests_cant": "The tests compare shells with reference numbers of a few models, or single strains; a wrong power of the metric, thickness or factor of the twist only shows for skewed parametrisations and is consistent under differentiation.", "anchors": ["ikarus/finiteelements/mechanics/kirchhoffloveshell.hh: computeMaterialAndStrains, calculateScalarImpl, calculateVectorImpl, calculateMatrixImpl, materialTangent", "ikarus/finiteelements/mechanics/membranestrains.hh: DefaultMembraneStrain", "ikarus/finiteelements/mechanics/nonlinearelastic.hh: calculateScalarImpl, calculateVectorImpl, calculateMatrixImpl"]}
{"id": "C182", "title": "Nonlinear solids linearise to linear solids, and trusses on a line are one-dimensional solids", "statement": "At rest calculateVector of a NonLinearElastic element with a stress-free material is zero, and calculateMatrix returns the stiffness of LinearElastic with the moduli of the material at rest. The forces of small displacements are those of the linear element up to higher order. A Truss in one dimension has the energy, forces and stiffness of a nonlinear one-dimensional solid with Young's modulus as its modulus, times the cross section, for every quadrature that is exact for constants.", "quantifier": "for dimensions one to three, all numbers of nodes, integration points, derivatives of shape functions, materials free of stress at rest, displacements, moduli, cross sections and lengths", "why_tests_cant": "Each element is tested against its own derivatives or reference numbers; both elements of a pair pass although they differ by a factor or by the weight of the shear strain.", "anchors": ["ikarus/finiteelements/mechanics/nonlinearelastic.hh: calculateVectorImpl, calculateMatrixImpl", "ikarus/finiteelements/mechanics/linearelastic.hh: calculateVectorImpl, calculateMatrixImpl", "ikarus/finiteelements/mechanics/truss.hh: computeStrain, calculateScalarImpl, calculateVectorImpl, calculateMatrixImpl"]}
{"id": "C183", "title": "What a shell computes depends neither on the coordinates nor on the parametrisation of its surface", "statement": "Describe the same Kirchhoff-Love shell in two Cartesian coordinate systems, turned or mirrored, and with two parametrisations of its surface, also with opposite normals. Then calculateScalar returns the same energy for the same displacements, and calculateVector and calculateMatrix the same forces and stiffness, in the components of the two coordinate systems. So neither the directions nor the speed of the parameters along the surface, nor which side is the upper one, influences the result.", "quantifier": "for all rotations and reflections, all invertible changes of parameters at each integration point with all second derivatives, all numbers of nodes, integration points, thicknesses, material parameters and displacements", "why_tests_cant": "Tests use one parametrisation, mostly orthogonal and of unit speed, where wrong index positions of the metric or a missing term of the second derivatives are invisible; the consistency of the derivatives holds for a wrong energy too.", "anchors": ["ikarus/finiteelements/mechanics/kirchhoffloveshell.hh: computeMaterialAndStrains, calculateScalarImpl, calculateVectorImpl, calculateMatrixImpl, materialTangent", "ikarus/finiteelements/mechanics/membranestrains.hh: DefaultMembraneStrain"]}
{"id": "C184", "title": "Elements with enhanced strains or assumed stresses do not depend on how their corners are numbered", "statement": "Take an element with any of the implemented enhanced strain variants (linear, Green-Lagrange, displacement gradient, transposed displacement gradient) or assumed stress variants, and number its corners in another way that is allowed for the element, also mirrored. The internal variables of the two elements then correspond by one fixed invertible change of variables: for corresponding values, the strains or stresses at each point are the same, calculateVector and calculateMatrix return the same forces and condensed stiffness with the entries in the other order, and the energy of assumed stresses is the same. Initialising and updating the internal variables keeps the correspondence. So a mesh generator may number the corners of each element as it likes; this holds for the enhanced strains with 4, 5, 7 and 11 (plane) and 9 and 21 (solid) parameters, the displacement gradients with 4 and 9, and the assumed stresses with 5, 18, 24 and 30 parameters.", "quantifier": "for all enhanced strain and assumed stress variants in two and three dimensions, all symmetries of the square and the cube, all shapes of the element, displacements, internal variables, corrections, local materials and symmetric integration rules", "why_tests_cant": "Tests compute with one numbering, that of the grid factory; a variant whose polynomials prefer one local direction passes patch tests, tangent checks and benchmarks on meshes whose elements all point the same way.", "anchors": ["ikarus/finiteelements/mechanics/enhancedassumedstrains.hh: calculateVectorImpl, calculateMatrixImpl, updateStateImpl", "ikarus/finiteelements/mechanics/strainenhancements/easvariants: E4, E5, E7, E11, E9, E21, H4, H9", "ikarus/finiteelements/mechanics/assumedstress.hh: calculateScalarImpl, calculateVectorImpl, calculateMatrixImpl, initializeState, updateStateImpl", "ikarus/finiteelements/mechanics/assumedstress/asvariants/linearandpk2stress.hh: S5, S18, S24, S30"]}
{"id": "C185", "title": "Elements with enhanced strains or assumed stresses do not depend on the coordinate system", "statement": "Describe an element with any of the implemented enhanced strain variants (linear, Green-Lagrange, displacement gradient, transposed displacement gradient) or assumed stress variants in a rotated or reflected coordinate system, with displacements turned accordingly and the same internal variables. If the material is isotropic, the strains or stresses at the integration points are the turned ones, calculateVector returns the turned forces, calculateMatrix the turned condensed stiffness, the energy of assumed stresses is the same, and the update of the internal variables by the turned correction gives the same internal variables. So the internal variables are quantities of the body, and a structure built in any position gives the same answer.", "quantifier": "for all enhanced strain and assumed stress variants in two and three dimensions, all rotations and reflections, all shapes of the element, displacements, internal variables, corrections and isotropic materials, linear and nonlinear", "why_tests_cant": "Tests compute elements that are aligned with the axes or a few fixed shapes, where a transformation matrix that is transposed, inverted at the wrong place or has a factor two in the shear row is a diagonal matrix and passes; the result depends on the direction only for turned and distorted elements.", "anchors": ["ikarus/finiteelements/mechanics/enhancedassumedstrains.hh: calculateVectorImpl, calculateMatrixImpl, updateStateImpl", "ikarus/finiteelements/mechanics/strainenhancements/easvariants: E4, E5, E7, E11, E9, E21, H4, H9", "ikarus/finiteelements/mechanics/assumedstress.hh: calculateScalarImpl, calculateVectorImpl, calculateMatrixImpl, updateStateImpl", "ikarus/finiteelements/mechanics/assumedstress/asvariants/linearandpk2stress.hh: S5, S18, S24, S30", "ikarus/finiteelements/mechanics/strainenhancements/easvariants/helperfunctions.hh: transformationMatrixAtCenterWithDetJ"]}
{"id": "C186", "title": "In small displacements all variants of the enhanced strains are the same element", "statement": "An element with enhanced Green-Lagrange strains, with enhanced displacement gradients or with transposed ones, evaluated in the undeformed configuration, has no internal forces, and its condensed stiffness is exactly that of the element with enhanced linear strains, the same number of parameters and the moduli of the material there. The first correction changes its internal variables to those of the linear element, in the order of the modes and with the factor detJ0^2 between them. So changing the strain variant of a model changes results only by large deformations, not the small displacement solution.", "quantifier": "for all nonlinear materials free of stress at rest with symmetric moduli, all shapes of the element with an invertible Jacobian at its center, all integration rules, all load vectors and first corrections, in two and three dimensions", "why_tests_cant": "Tests compare each variant with stored results or with its own derivatives; a mode of the displacement gradients that is missing, doubled or transformed with the Jacobian instead of its inverse is consistent with its own derivatives, and equal on a unit square.", "anchors": ["ikarus/finiteelements/mechanics/enhancedassumedstrains.hh: calculateVectorImpl, calculateMatrixImpl, updateStateImpl", "ikarus/finiteelements/mechanics/strainenhancements/easvariants/linearandglstrains.hh: E4, E9", "ikarus/finiteelements/mechanics/strainenhancements/easvariants/displacementgradient.hh: H4, H9", "ikarus/finiteelements/mechanics/strainenhancements/easfunctions: linearstrain.hh, greenlagrangestrain.hh, displacementgradient.hh, displacementgradienttransposed.hh", "ikarus/finiteelements/mechanics/strainenhancements/easvariants/helperfunctions.hh: transformDisplacementGradient, transformationMatrixAtCenterWithDetJ"]}
{"id": "C187", "title": "Displacement-pressure elements do not depend on the coordinate system", "statement": "Describe an element with displacement-pressure skill in a rotated or reflected coordinate system, with displacements turned accordingly and the same pressures. If the material is isotropic, calculateScalar returns the same energy, calculateVector the turned forces and the same residuals of the pressures, and calculateMatrix a matrix whose displacement block is turned from both sides, whose coupling blocks are turned from one side and whose pressure block is the same. So the pressures are quantities of the body, and a nearly incompressible structure built in any position gives the same answer.", "quantifier": "for all dimensions up to three, all rotations and reflections, all shapes of the element, shape functions, integration rules, displacements, pressures, vectors added to and isotropic materials with any decomposition", "why_tests_cant": "Tests compute a few fixed elements aligned with the axes and check derivatives; a coupling block that is transposed, exchanged between directions or placed at the wrong index of the pressure is seen only by comparing turned elements for all positions of its entries.", "anchors": ["ikarus/finiteelements/mechanics/displacementpressure.hh: energyFunction, calculateScalarImpl, calculateVectorImpl, calculateMatrixImpl, DPConstitutiveDriver"]}
{"id": "C188", "title": "Rigid motions do nothing to displacement-pressure elements", "statement": "Turn and shift a displacement-pressure element that is already displaced and has any pressures: the energy from calculateScalar does not change. In every state the forces from calculateVector have neither a resultant nor a moment about the displaced nodes, whatever the pressures. An element that has only been turned and shifted and has no pressure has zero forces and zero residuals of the pressures.", "quantifier": "for all elements of two and three dimensions with complete shape functions of the displacements, all shape functions of the pressure, materials, displacements, pressures, rotations and shifts", "why_tests_cant": "Tests evaluate a few small displacements near the initial configuration; that the pressure terms add no resultant or moment for large rotations and any pressure is a statement about all states.", "anchors": ["ikarus/finiteelements/mechanics/displacementpressure.hh: energyFunction, calculateScalarImpl, calculateVectorImpl"]}
{"id": "C189", "title": "The pressure of a displacement-pressure element is the modulus times the change of volume, in the mean", "statement": "The residuals of the pressures are zero exactly if the pressure field has the same weighted means over the element as kappa times the change of volume, with the shape functions of the pressure as weights. If the pressure equals kappa times the change of volume at every integration point, energy and forces are those of the displacement element with the energy Wdev + kappa/2 U^2. With one constant pressure, solved for, the pressure is kappa times the mean change of volume, the energy is that of the deviatoric part plus kappa/2 times the volume times the square of the mean, and the forces use this one pressure: the mean dilatation element.", "quantifier": "for all strains, shape functions, integration rules, deviatoric and volumetric materials, displacements and pressures", "why_tests_cant": "Tests check stored results of a few elements and derivatives; a wrong sign, factor or modulus in the pressure equation is consistent with its own derivatives and shows as a wrong stiffness against changes of volume only in comparison with the displacement element.", "anchors": ["ikarus/finiteelements/mechanics/displacementpressure.hh: DPConstitutiveDriver, energyFunction, calculateVectorImpl, pressureFunction"]}
{"id": "C190", "title": "Rigid motions do nothing to elements with enhanced strains", "statement": "Turn and shift an element with enhanced strains that is already displaced. With enhanced Green-Lagrange strains and with the transposed enhancement of the displacement gradient, the strains and the energy do not change while the internal variables are kept, and in every state the forces from calculateVector, which contain the condensed internal variables, have neither a resultant nor a moment about the displaced nodes, even if the internal variables have not converged. With the enhancement of the displacement gradient the strains and the energy do not change if the internal variables are turned along; the forces have neither resultant nor moment once the residuals of the internal variables are zero.", "quantifier": "for all elements of two and three dimensions with complete shape functions, integration rules, materials, displacements, internal variables, rotations and shifts", "why_tests_cant": "Tests evaluate a few small displacements near the initial configuration with converged or zero internal variables; large rotations and the condensation of internal variables that have not converged are a statement about all states.", "anchors": ["ikarus/finiteelements/mechanics/enhancedassumedstrains.hh: calculateVectorImpl, calculateDAndLMatrix, calculateRtilde", "ikarus/finiteelements/mechanics/strainenhancements/easfunctions: greenlagrangestrain.hh, displacementgradient.hh, displacementgradienttransposed.hh", "ikarus/finiteelements/mechanics/strainenhancements/easvariants: H4, H9"]}
{"id": "C191", "title": "Rigid motions do nothing to elements with assumed stresses", "statement": "Turn and shift an element with assumed second Piola-Kirchhoff stresses that is already displaced and keep what it stores (stress parameters, strains and inverted material): the energy from calculateScalar and the residuals of the stress parameters do not change. In every state, also with stress parameters that have not converged and stored strains that do not fit to them, the forces from calculateVector have neither a resultant nor a moment about the displaced nodes.", "quantifier": "for all elements of one to three dimensions with complete shape functions, stress modes, integration rules, stored states, displacements, rotations and shifts", "why_tests_cant": "Tests evaluate a few small displacements near the initial configuration; large rotations and states between the iterations, where the condensed residual acts on the nodes, are a statement about all states.", "anchors": ["ikarus/finiteelements/mechanics/assumedstress.hh: calculateScalarImpl, calculateVectorImpl, calculateHAndGMatrix, calculateRtilde", "ikarus/finiteelements/mechanics/assumedstress/asfunctions/pk2stress.hh"]}
{"id": "C192", "title": "Forces and stiffness turn with the element", "statement": "Turn and shift a nonlinear solid or a Kirchhoff-Love shell that is already displaced: the forces from calculateVector are the turned forces and the matrix from calculateMatrix is the turned matrix, although nodes and material stay those of the initial configuration. In every state the stiffness matrix times a translation of all nodes is zero. The stiffness matrix times a small rotation of the displaced nodes is the change of the forces that turn along; where there are no forces it is zero. So an element without forces has the rigid motions as zero modes in any position, and an element with forces feels rotations by its forces only.", "quantifier": "for all solids of one to three dimensions and shells with complete shape functions, all integration rules, hyperelastic materials, displacements, rotations and shifts", "why_tests_cant": "Tests count zero eigenvalues in the initial configuration or compare a few results; that the geometric stiffness fits exactly to the forces for every rotation and every stressed state is a statement about all states.", "anchors": ["ikarus/finiteelements/mechanics/nonlinearelastic.hh: calculateVectorImpl, calculateMatrixImpl", "ikarus/finiteelements/mechanics/kirchhoffloveshell.hh: calculateVectorImpl, calculateMatrixImpl"]}
{"id": "C193", "title": "Elements with enhanced strains turn with their forces", "statement": "Turn and shift a nonlinear element with enhanced strains that is already displaced, and keep its internal variables: the forces from calculateVector are the turned forces and the matrix from calculateMatrix is the turned matrix, both after the condensation of the internal variables. A correction of the displacements that is turned along changes the internal variables by the same amounts. So a Newton iteration of the moved element takes the same steps as that of the original one.", "quantifier": "for all solids of two and three dimensions with enhanced Green-Lagrange strains or transposed displacement gradients, all numbers of modes, integration rules, hyperelastic materials, displacements, internal variables, rotations and shifts", "why_tests_cant": "Tests compare eigenvalues in the initial configuration or a few solutions; that the condensed forces, the condensed matrix and the update of the hidden variables fit to every rotation in every state is a statement about all states.", "anchors": ["ikarus/finiteelements/mechanics/enhancedassumedstrains.hh: calculateVectorImpl, calculateMatrixImpl, updateStateImpl"]}
{"id": "C194", "title": "Elements with assumed stresses turn with their forces", "statement": "Turn and shift an element with assumed second Piola-Kirchhoff stresses that is already displaced, and keep what it stores: the forces from calculateVector are the turned forces and the matrix from calculateMatrix is the turned matrix. A correction of the displacements that is turned along leaves exactly the same stored state behind: the same stress parameters, and so the same strains and inverted moduli at all integration points. This holds for converged and for other stored states.", "quantifier": "for all elements of one to three dimensions with complete shape functions, all stress modes, integration rules, materials, stored states, displacements, corrections, rotations and shifts", "why_tests_cant": "Tests compare eigenvalues in the initial configuration or a few solutions; that the condensed forces, the matrix and the stored state fit to every rotation, also before convergence, is a statement about all states.", "anchors": ["ikarus/finiteelements/mechanics/assumedstress.hh: calculateVectorImpl, calculateMatrixImpl, updateStateImpl, calculateHAndGMatrix, calculateRtilde"]}
{"id": "C195", "title": "Displacement-pressure elements turn with their forces", "statement": "Turn and shift a displacement-pressure element that is already displaced, and keep its pressures: the nodal forces from calculateVector are the turned forces, and the residuals of the pressures are the same. In the matrix from calculateMatrix the rows and columns of the displacements are turned, the coupling with the pressures is turned on the side of the displacements, and the block of the pressures is the same.", "quantifier": "for all elements of one to three dimensions with complete shape functions, all shape functions of the pressure, integration rules, pairs of hyperelastic materials, displacements, pressures, rotations and shifts", "why_tests_cant": "Tests evaluate a few states near the initial configuration; that all four blocks of the matrix and both parts of the vector fit to every rotation for every pressure is a statement about all states.", "anchors": ["ikarus/finiteelements/mechanics/displacementpressure.hh: calculateVectorImpl, calculateMatrixImpl"]}
{"id": "C196", "title": "Trusses turn with their forces", "statement": "Turn and shift a truss that is already displaced: the forces from calculateVector are the turned forces and the matrix from calculateMatrix is the turned matrix. In every state the stiffness matrix times a translation of both nodes is zero, and the stiffness matrix times a small rotation of the displaced nodes is the change of the forces that turn along.", "quantifier": "for all trusses in one, two and three dimensions, all moduli, areas, initial places, displacements, rotations and shifts", "why_tests_cant": "Tests evaluate one or two trusses in a few states; that the geometric stiffness fits exactly to the axial force for every rotation and stretch is a statement about all states.", "anchors": ["ikarus/finiteelements/mechanics/truss.hh: calculateVectorImpl, calculateMatrixImpl, computeStrain"]}
