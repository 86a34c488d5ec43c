{"id": "C01", "title": "Setting the free dofs of an object and reading them back is lossless and leaves fixed dofs alone", "statement": "After `obj.local_x = v` with len(v) equal to the number of free local dofs, `obj.local_x` returns exactly v, every fixed dof keeps its previous value, and names, bounds and free/fixed status are unchanged.", "quantifier": "every DOFs object (any length, any pattern of free/fixed, any bounds), every vector v of the right length", "why_tests_cant": "the claim ranges over all free/fixed patterns and all vectors; tests pick a few patterns", "anchors": ["src/simsopt/_core/optimizable.py:DOFs.free_x", "src/simsopt/_core/optimizable.py:Optimizable.local_x"]}
{"id": "C02", "title": "An assignment of the wrong length is rejected atomically", "statement": "`DOFs.free_x = v`, `DOFs.full_x = v`, `free_lower_bounds = v` and `free_upper_bounds = v` raise when len(v) is not the expected length, and after the exception nothing observable (values, bounds, status, names) has changed.", "quantifier": "every DOFs state and every vector of every wrong length", "why_tests_cant": "needs all wrong lengths in all states; the failure path must be shown to have no effect", "anchors": ["src/simsopt/_core/optimizable.py:DOFs.free_x", "src/simsopt/_core/optimizable.py:DOFs.full_x", "src/simsopt/_core/optimizable.py:DOFs.free_lower_bounds", "src/simsopt/_core/optimizable.py:DOFs.free_upper_bounds"]}
{"id": "C03", "title": "fix/unfix change only the status of the named dof", "statement": "`fix(k)`/`unfix(k)` with k a name or an index change the free/fixed status of exactly that dof and nothing else; `is_free(k)` reports the last such operation; fix_all/unfix_all set every status; the free count always equals the number of free entries.", "quantifier": "every DOFs state, every key, every sequence of status operations", "why_tests_cant": "an unbounded history of operations", "anchors": ["src/simsopt/_core/optimizable.py:DOFs.fix", "src/simsopt/_core/optimizable.py:DOFs.unfix", "src/simsopt/_core/optimizable.py:DOFs.fix_all", "src/simsopt/_core/optimizable.py:DOFs.unfix_all", "src/simsopt/_core/optimizable.py:DOFs.is_free", "src/simsopt/_core/optimizable.py:DOFs.reduced_len"]}
{"id": "C04", "title": "get/set by name address exactly one dof", "statement": "`set(name, v)` makes `get(name)` return v and leaves every other dof, all bounds and all statuses unchanged, whether the dof is free or fixed; an unknown name raises and changes nothing. The same holds for set_lower_bound/set_upper_bound.", "quantifier": "every DOFs state, every key and value", "why_tests_cant": "all names, all states", "anchors": ["src/simsopt/_core/optimizable.py:DOFs.get", "src/simsopt/_core/optimizable.py:DOFs.set", "src/simsopt/_core/optimizable.py:DOFs.update_lower_bound", "src/simsopt/_core/optimizable.py:DOFs.update_upper_bound"]}
{"id": "C05", "title": "The free views of an object are mutually aligned", "statement": "free_x, free_lower_bounds, free_upper_bounds and free_names have the same length (reduced_len) and their i-th entries all belong to the same dof, in the order of the full vector.", "quantifier": "every reachable DOFs state", "why_tests_cant": "every free/fixed pattern after every history", "anchors": ["src/simsopt/_core/optimizable.py:DOFs.free_x", "src/simsopt/_core/optimizable.py:DOFs.free_lower_bounds", "src/simsopt/_core/optimizable.py:DOFs.free_upper_bounds", "src/simsopt/_core/optimizable.py:DOFs.free_names"]}
{"id": "C06", "title": "DOFs stay well formed under every operation history", "statement": "Starting from any successfully constructed DOFs, after any sequence of fix/unfix/set/assign/bounds operations (including failing ones) the values, statuses, names, lower and upper bounds all have the same length and names are pairwise distinct; the constructor rejects inconsistent lengths and duplicate names.", "quantifier": "every constructor argument list and every finite sequence of operations", "why_tests_cant": "unbounded histories including error paths", "anchors": ["src/simsopt/_core/optimizable.py:DOFs.__init__"]}
{"id": "C07", "title": "The setters of the full bounds always raise and change nothing", "statement": "`dofs.full_lower_bounds = v` and `dofs.full_upper_bounds = v` raise AttributeError for every v, of the right length or not, and leave the values, status and bounds as they were (they refer to an attribute that does not exist), so bounds can be changed only through the free bounds and the update_* methods.", "quantifier": "every DOFs state and every vector", "why_tests_cant": "the claim is universal; the refutation shows no input at all works", "anchors": ["src/simsopt/_core/optimizable.py:DOFs.full_lower_bounds", "src/simsopt/_core/optimizable.py:DOFs.full_upper_bounds"]}
{"id": "C08", "title": "Two objects that do not share DOFs do not influence each other", "statement": "Every assignment of dof values has exactly the effect the sharing of arrays implies: writing entry k of one object (set, free_x, or a write by the caller through an array it holds) changes entry i of another object if and only if the two entries are the same place in memory, i.e. the objects were given overlapping views of one array; assigning a whole vector re-binds the object to the caller's array without copying and changes no other object. In particular, objects whose arrays were all handed in fresh never influence each other, and `a.local_full_x = b.local_full_x` ties the two together.", "quantifier": "every heap of arrays and every sequence of assignments", "why_tests_cant": "aliasing histories are unbounded", "anchors": ["src/simsopt/_core/optimizable.py:DOFs.full_x", "src/simsopt/_core/optimizable.py:Optimizable.local_full_x"]}
{"id": "C09", "title": "The ancestor list is exactly the transitive closure of the parent relation after any edit of the graph", "statement": "After any sequence of object creations and add_parent/append_parent/pop_parent/remove_parent operations on an acyclic graph, `obj.ancestors` of every object contains exactly the objects reachable through parents, each once, sorted by name.", "quantifier": "every finite acyclic dependency graph and every sequence of edits; every iteration order of the child sets", "why_tests_cant": "the graph and edit history are unbounded and child iteration order is nondeterministic", "anchors": ["src/simsopt/_core/optimizable.py:Optimizable._get_ancestors", "src/simsopt/_core/optimizable.py:Optimizable._update_full_dof_size_indices", "src/simsopt/_core/optimizable.py:Optimizable.add_parent", "src/simsopt/_core/optimizable.py:Optimizable.pop_parent"]}
{"id": "C10", "title": "The global free vector is partitioned into contiguous disjoint blocks, one per distinct DOFs", "statement": "For every object, `dof_size` is the total number of free dofs over its lineage (ancestors and itself) with each shared DOFs counted once; the first lineage member using a DOFs owns its index block; the blocks in `dof_indices` tile [0, dof_size) in lineage order; x, lower_bounds, upper_bounds and dof_names have length dof_size and their slices at a block are the free values, bounds and names of that member. The same holds for the full vectors and full_dof_size.", "quantifier": "every dependency graph, every sharing pattern and every free/fixed pattern", "why_tests_cant": "all graphs and sharing patterns", "anchors": ["src/simsopt/_core/optimizable.py:Optimizable.update_free_dof_size_indices", "src/simsopt/_core/optimizable.py:Optimizable._update_full_dof_size_indices", "src/simsopt/_core/optimizable.py:Optimizable.x", "src/simsopt/_core/optimizable.py:Optimizable.dof_names"]}
{"id": "C100", "title": "Boozer data belong to the requested surface and the current equilibrium", "statement": "After any history of registrations, clearings, equilibrium changes and earlier reads, the Boozer data of a registered flux surface s are those of the half-grid surface nearest to s (the inner one in a tie, at most half a grid spacing away) of the present equilibrium, whatever other surfaces are registered, and an exception if the equilibrium fails; each needed surface is transformed once. register refuses exactly values outside [0,1], and everything once the registry was emptied the documented way (boozer.s = {}). Not noticed until the next announced change or registration: new mpol/ntor of the Boozer object, unannounced changes of the equilibrium, an emptied registry; after that, surfaces not registered again raise.", "quantifier": "all equilibria, radial resolutions, sets of surfaces and histories of operations of any length", "why_tests_cant": "ranges over all histories and all interleavings of several objectives sharing a Boozer object", "anchors": ["src/simsopt/mhd/boozer.py:Boozer.register", "src/simsopt/mhd/boozer.py:Boozer.run", "src/simsopt/mhd/boozer.py:Boozer.recompute_bell"]}
{"id": "C101", "title": "Quasisymmetry.J vanishes exactly on quasisymmetric fields", "statement": "For every spectrum with distinct modes and helicity (M,N), M in {0,1}, not both zero, and both normalisations and all weights: J lists the normalised amplitudes of the modes with M xn + nfp N xm != 0 (or their root sum of squares), and vanishes if and only if |B| on the surface depends on M theta + nfp N zeta only. This is the documented symmetry B(M theta - nfp N zeta) if M or N is zero, but has the opposite sign for quasi-helical symmetry: fields of the documented form are reported as broken. M outside {0,1} raises, (0,0) is treated as (1,0), and the sine amplitudes of asymmetric equilibria are ignored, so J can vanish on a non-symmetric field.", "quantifier": "all Boozer spectra, helicities, numbers of field periods, normalisations and weights", "why_tests_cant": "an equivalence about functions of two real angles for every spectrum", "anchors": ["src/simsopt/mhd/boozer.py:Quasisymmetry.J"]}
{"id": "C102", "title": "least_squares_serial_solve runs the optimizer on the weighted residuals of the problem", "statement": "For every optimizer and every earlier use of the problem (failures and exceptions included), each vector handed to the optimizer at x is the weighted residual vector at x, or fail*sqrt(weight) in every entry if a function reports failure there; the log has one row per evaluation in order, with x, these residuals and their squared norm (the least squares objective at x). From a fresh problem, or one that was evaluated successfully before, the solve is the optimizer's run on that pure function, and prob.x = result.x at the end. Refuted: the placeholder residuals for exceptions are never used -- the objective is evaluated again outside the handler, so any exception (and a failing first evaluation, or fail=None) ends the solve with prob.x at the failing point.", "quantifier": "all problems, functions with failures and crashes anywhere, optimizers (arbitrary interactive programs) and histories before the solve", "why_tests_cant": "ranges over all optimizers and all histories of a stateful problem object", "anchors": ["src/simsopt/solve/serial.py:least_squares_serial_solve", "src/simsopt/objectives/least_squares.py:LeastSquaresProblem.residuals"]}
{"id": "C103", "title": "serial_solve and constrained_serial_solve evaluate at the requested point", "statement": "serial_solve hands the optimizer prob(x), or 1e12 if it raises, logs exactly these values in order and ends with prob.x = result.x; grad=True always raises before any evaluation. constrained_serial_solve: in every state the objective handed over at x is the objective at x, or fail if its function fails or raises; once the constraints have been evaluated successfully, the solve is the optimizer's run on objective and constraints (fail in every entry where one fails or raises) and all constraint vectors have the same length. Refuted for a problem whose first constraint evaluation fails: the optimizer gets only as many entries as were computed before the failure, and a second failure adds to them.", "quantifier": "all objective and constraint functions with failures and crashes anywhere, bounds, optimizers and histories", "why_tests_cant": "ranges over all optimizers and histories", "anchors": ["src/simsopt/solve/serial.py:serial_solve", "src/simsopt/solve/serial.py:constrained_serial_solve", "src/simsopt/objectives/constrained.py:ConstrainedProblem"]}
{"id": "C104", "title": "MPI solvers: same optimization as serial, and all processes of a group make the same function calls", "statement": "least_squares_mpi_solve (grad=False) hands the optimizer the vectors of least_squares_serial_solve and ends like it, from any reachable state. If no exception occurs, every worker of the group makes exactly the function calls of process 0 in the same order, is released, and all processes end with prob.x = result.x. Refuted when a function fails or raises with no masking: process 0 calls the functions again alone and the workers are never released. The residual file holds unweighted residuals (serial: weighted). constrained_mpi_solve: calls are in step, and workers are released exactly if the solve finishes, provided no request repeats one of its kind at the same x and the start point was not evaluated before; otherwise process 0 answers from its cache while the workers evaluate (refuted).", "quantifier": "all problems, optimizers, histories on process 0 and any state of the workers", "why_tests_cant": "a relation between the call sequences of two processes over all runs; deadlocks show only for group-collective functions", "anchors": ["src/simsopt/solve/mpi.py:least_squares_mpi_solve", "src/simsopt/solve/mpi.py:_mpi_workers_task", "src/simsopt/solve/mpi.py:constrained_mpi_solve", "src/simsopt/solve/mpi.py:_constrained_mpi_workers_task"]}
{"id": "C105", "title": "Tracing integrates the stated equations of motion, which conserve energy (and canonical momentum)", "statement": "The right-hand sides used by trace_particles, trace_particles_boozer and trace_fieldlines are: the Lorentz equation (speed conserved), dx/dt = B, the cartesian vacuum guiding-centre equations (E = m v_par^2/2 + m mu |B| conserved along the flow for any field), and in Boozer coordinates the Euler-Lagrange equations of the guiding-centre Lagrangian for modes gc and (with K dropped) gc_noK, and gc_vac when G is constant and I = K = 0; all conserve energy, and for quasisymmetric |B| the canonical momentum. mu set from the initial speeds makes E the kinetic energy. The cartesian parallel acceleration carries 1/|B| that the documented formula lacks.", "quantifier": "all differentiable fields, masses, nonzero charges, states (regular points) and all curves solving the equations", "why_tests_cant": "conservation is an identity of the continuous flow for every field, hidden in tests under integrator error", "anchors": ["src/simsoptpp/tracing.cpp:GuidingCenterVacuumRHS", "src/simsoptpp/tracing.cpp:GuidingCenterVacuumBoozerRHS", "src/simsoptpp/tracing.cpp:GuidingCenterNoKBoozerRHS", "src/simsoptpp/tracing.cpp:GuidingCenterBoozerRHS", "src/simsoptpp/tracing.cpp:FullorbitRHS", "src/simsoptpp/tracing.cpp:FieldlineRHS"]}
{"id": "C106", "title": "Full-orbit initial conditions correspond to the guiding centre", "statement": "For a positive charge and B not parallel to z, gc_to_fullorbit_initial_guesses returns a position and velocity with total speed v_total, parallel speed v_par, at one gyroradius m v_perp/(q|B|) from the guiding centre, perpendicular to B, and whose guiding centre x + m v x B/(q|B|^2) is the given point. Refuted for negative charges: the guiding centre is then off by two gyroradii.", "quantifier": "all fields, points, speeds, masses, charges and gyrophases", "why_tests_cant": "ranges over all fields and phases; the wrong sign shows only for negative charges", "anchors": ["src/simsopt/field/tracing.py:gc_to_fullorbit_initial_guesses"]}
{"id": "C107", "title": "Toroidal/poloidal transits and the transit stopping criterion count turns", "statement": "get_phi returns an angle of (x,y) within half a turn of the previous one. If consecutive samples of an orbit are less than half a turn apart, compute_toroidal_transits and compute_poloidal_transits return the net number of turns (of the continuous angle) rounded to the nearest integer, in flux coordinates as well; ToroidalTransitStoppingCriterion(n) fires for forward orbits exactly when n turns are completed. Refuted for backward orbits: it fires one turn early (n=1: immediately).", "quantifier": "all orbits of any length sampled at less than half a turn, all n >= 1, all previous uses of the criterion", "why_tests_cant": "a statement about the continuous lift of an arbitrary orbit", "anchors": ["src/simsoptpp/tracing.cpp:get_phi", "src/simsoptpp/tracing.h:ToroidalTransitStoppingCriterion", "src/simsopt/field/tracing.py:compute_toroidal_transits", "src/simsopt/field/tracing.py:compute_poloidal_transits"]}
{"id": "C108", "title": "A traced path and its hits are exactly those of the integrator's steps up to tmax or the first stopping criterion", "statement": "For any integrator and root finder: the path holds the states before each step and the state interpolated at tmax unless stopped; the hits hold, per step in order, one row per plane crossed (a plane is crossed iff some phi+2 pi k lies between the angles, upper end included), with the better end of the bracket, then the row -1-i of the first criterion i that fires. The plane handed to the root finder is always bracketed (its assertion never fails) for steps below one turn. Over a monotone orbit the number of rows for a plane is the number of its crossings. Refuted: that a particle confined until tmax is reported confined -- criteria are also tested on the step beyond tmax.", "quantifier": "all step sequences, dense outputs, root finder results, plane lists, criteria lists, tmax", "why_tests_cant": "ranges over all orbits and step sequences", "anchors": ["src/simsoptpp/tracing.cpp:solve", "src/simsoptpp/tracing.h:StoppingCriterion"]}
{"id": "C109", "title": "Particles are traced independently of order, process and earlier use of the criteria", "statement": "Every stopping criterion answers as documented for the current state (bounds on s, R, Z included at equality; iteration criterion after more than n steps; level set when negative at (R, phi in [0,2 pi), Z)); although criteria objects are shared and stateful, each particle's result equals its result when traced alone with fresh criteria, and with MPI every process returns exactly the serial list for any number of processes.", "quantifier": "all particle lists, process counts, criteria lists, criteria states before the call", "why_tests_cant": "state leaking between particles or processes depends on the history", "anchors": ["src/simsopt/field/tracing.py:trace_particles", "src/simsopt/field/tracing.py:trace_particles_boozer", "src/simsopt/field/tracing.py:trace_fieldlines", "src/simsoptpp/tracing.h:StoppingCriterion"]}
{"id": "C11", "title": "x set/get round trip through the graph", "statement": "After `obj.x = v` with len(v) = dof_size, `obj.x` returns v, fixed dofs anywhere in the graph keep their values and objects outside the lineage that share no DOFs are unchanged; a wrong length raises before anything is changed.", "quantifier": "every dependency graph and every vector", "why_tests_cant": "all graphs, all vectors", "anchors": ["src/simsopt/_core/optimizable.py:Optimizable.x"]}
{"id": "C110", "title": "BoozerSurface penalty objective: exact gradient and Hessian, python and C++ versions equal, zero exactly on the wanted surface", "statement": "For a surface linear in its dofs and any field with its true first and second derivatives, the Jacobian and Hessian returned by boozer_surface_residual are the derivatives of the residual with respect to surface dofs, iota and (if optimised) G, with and without the 1/|B| weight; boozer_penalty_constraints returns a value, gradient and Hessian that are derivatives of one another; boozer_penalty_constraints_vectorized returns the same three; with a positive constraint weight the value is zero exactly when G B = |B|^2 (x_phi + iota x_theta) at all quadrature points, the label has its target value and z(0,0)=0. BiotSavart of any coils is such a field away from the coils.", "quantifier": "all linear surface representations, dofs, quadrature sets, fields, coils, iota, G, weights and labels; derivatives along every differentiable curve of unknowns, at surfaces where |B| > 0", "why_tests_cant": "Taylor tests sample a few directions of one surface and one field; the equality of the two implementations and the derivatives must hold for all", "anchors": ["src/simsopt/geo/surfaceobjectives.py:boozer_surface_residual", "src/simsopt/geo/boozersurface.py:BoozerSurface.boozer_penalty_constraints", "src/simsopt/geo/boozersurface.py:BoozerSurface.boozer_penalty_constraints_vectorized", "src/simsoptpp/boozerresidual_impl.h:boozer_residual_impl"]}
{"id": "C111", "title": "boozer_exact_constraints is the first order optimality system of the constrained problem", "statement": "The first n_x entries of boozer_exact_constraints are the derivative with respect to the unknowns of the Lagrangian 1/2|r|^2 - lambda_1 (label - target) - lambda_2 z(0,0), the last two are the constraints, and the returned matrix is the Jacobian of all entries with respect to unknowns and multipliers: a Newton root is a stationary point of the stated problem.", "quantifier": "all surfaces, fields, labels, targets, multipliers, iota and G; with G fixed by the coils or optimised", "why_tests_cant": "a derivative identity for every surface and field", "anchors": ["src/simsopt/geo/boozersurface.py:BoozerSurface.boozer_exact_constraints", "src/simsopt/geo/boozersurface.py:BoozerSurface.minimize_boozer_exact_constraints_newton"]}
{"id": "C112", "title": "SurfaceXYZTensorFourier: dofs round trip, exact derivatives and Jacobians, symmetries; clamping breaks the second derivatives", "statement": "set_dofs followed by get_dofs is the identity on vectors of num_dofs entries, and coefficients excluded by stellarator symmetry are neither written nor seen. gamma and all its angle derivatives are linear in the dofs with coefficients d..._by_dcoeff. gammadash1, gammadash2 and gammadash1dash2 are the derivatives of gamma for every surface. gammadash2dash2 is exact when no dimension is clamped and wrong with a clamped dimension; gammadash1dash1 (and its agreement with its Jacobian) is exact when nothing is clamped or nfp is even and fails for every odd nfp > 1 with a clamped dimension. gamma(-phi,-theta) mirrors a stellarator symmetric surface, one field period rotates it, theta has period 1, and a clamped coordinate vanishes at phi = theta = 0 whatever the dofs. gamma_impl at points other than the surface's own does not return the surface.", "quantifier": "all mpol, ntor, nfp, coefficient arrays, clamped dimensions, stellsym flags, dofs and points phi, theta", "why_tests_cant": "the tests compare finite differences on a few shapes, with nfp values and clamping that do not meet the integer divisions", "anchors": ["src/simsopt/geo/surfacexyztensorfourier.py:SurfaceXYZTensorFourier", "src/simsoptpp/surfacexyztensorfourier.h:SurfaceXYZTensorFourier::gamma_impl", "src/simsoptpp/surfacexyztensorfourier.h:SurfaceXYZTensorFourier::gammadash1dash1_impl", "src/simsoptpp/surfacexyztensorfourier.h:SurfaceXYZTensorFourier::gammadash2dash2_impl", "src/simsoptpp/surfacexyztensorfourier.h:SurfaceXYZTensorFourier::basis_fun_dphi_dphi", "src/simsoptpp/surfacexyztensorfourier.h:SurfaceXYZTensorFourier::basis_fun_dtheta_dtheta", "src/simsoptpp/surfacexyztensorfourier.h:SurfaceXYZTensorFourier::set_dofs_impl"]}
{"id": "C113", "title": "get_stellsym_mask keeps exactly one point of each mirror pair; the exact Boozer system is square and complete", "statement": "For a stellarator symmetric SurfaceXYZTensorFourier on one of the three layouts of quadrature points, get_stellsym_mask keeps a set of points in which no two are mirror images and of which every dropped point has a mirror image; with the residual entries selected by solve_residual_equation_exactly_newton the number of equations equals the number of unknowns (also without stellarator symmetry), and if the selected entries are zero for a field with the surface's symmetries (such as coils_via_symmetries gives) the residual is zero at every quadrature point. Other grids raise; in particular the second layout of the docstring (2*mpol thetas on half a period) raises for every mpol >= 2.", "quantifier": "all mpol, ntor, nfp, dofs, iota, G, symmetric fields and all three layouts", "why_tests_cant": "the argument is about every resolution and every surface; tests run a few Newton solves", "anchors": ["src/simsopt/geo/surfacexyztensorfourier.py:SurfaceXYZTensorFourier.get_stellsym_mask", "src/simsopt/geo/boozersurface.py:BoozerSurface.solve_residual_equation_exactly_newton"]}
{"id": "C114", "title": "BoozerSurface: success flag, run caching and objective values are consistent with the coils", "statement": "If solve_residual_equation_exactly_newton reports success then the residual system holds to tol at the returned surface, iota and G, and a failure means that maxiter iterations were used (it can be a false failure: the last Newton step is never checked); minimize_boozer_penalty_constraints_newton's flag is exactly the gradient test at the returned point. run_code after a change of the coils solves from the current surface and stores the result; run again it returns None and changes nothing. In every history of coil changes, run_code calls and evaluations, Iotas.J() is the iota of a solve for the coils and target at that moment and the surface object holds that solution. It raises before the first run_code. Changes of the surface or of targetlabel after a solve are ignored; the 'manual' least squares method moves the surface without recording the result; constraint_weight 0 selects the exact solver.", "quantifier": "every coil set, surface, start value, tolerance, iteration limit, linear solver and history of calls", "why_tests_cant": "the claims are about all histories of calls and all behaviours of the inner solver; tests run one solve of one configuration", "anchors": ["src/simsopt/geo/boozersurface.py: run_code", "src/simsopt/geo/boozersurface.py: recompute_bell", "src/simsopt/geo/boozersurface.py: solve_residual_equation_exactly_newton", "src/simsopt/geo/boozersurface.py: minimize_boozer_penalty_constraints_newton", "src/simsopt/geo/boozersurface.py: minimize_boozer_penalty_constraints_LBFGS", "src/simsopt/geo/boozersurface.py: minimize_boozer_penalty_constraints_ls", "src/simsopt/geo/surfaceobjectives.py: Iotas"]}
{"id": "C115", "title": "forward_backward solves the transposed system, and the adjoint it returns gives the total derivative", "statement": "For every P, L, U with P a permutation (orthogonal), L and U triangular with non-zero diagonals, forward_backward(P, L, U, rhs) satisfies (P L U)^T adj = rhs, with and without iterative refinement. If n equations with Jacobian P L U in the n unknowns keep holding while a parameter moves, then any quantity with partial derivatives dJ in the unknowns and J_c in the parameter has the total derivative J_c - adj . g_c, with adj = forward_backward(P, L, U, dJ) and g_c the partial derivative of the equations in the parameter.", "quantifier": "every size, factorisation, right hand side, and every differentiable motion of parameter and unknowns", "why_tests_cant": "an identity for all factorisations and all implicit dependences; tests solve one random system", "anchors": ["src/simsopt/objectives/utilities.py: forward_backward", "src/simsopt/geo/surfaceobjectives.py: Iotas.compute", "src/simsopt/geo/surfaceobjectives.py: MajorRadius.compute"]}
{"id": "C116", "title": "Gradients of objectives on exact Boozer surfaces are the derivatives with respect to the coils", "statement": "On a stellarator symmetric surface found by the exact solver, the gradient that Iotas and MajorRadius hand to the coils (PLU, vjp of the masked residual, label included) is the total derivative of the objective: for every motion of the coils (shape and current) along which the surface, iota and G keep solving the equations, -dJ paired with the motion of the coils is d/dt of the objective. boozer_surface_residual_dB is the derivative of the residual in the field. Without stellarator symmetry the gradient of every such objective raises, because the scatter of the adjoint has one entry too many.", "quantifier": "every surface representation linear in its dofs, quadrature, mask, label, coil set and differentiable motion of the coils", "why_tests_cant": "the tests compare finite differences of one configuration; the chain rule through an implicitly defined surface is a statement about all of them", "anchors": ["src/simsopt/geo/surfaceobjectives.py: boozer_surface_dexactresidual_dcoils_dcurrents_vjp", "src/simsopt/geo/surfaceobjectives.py: boozer_surface_residual_dB", "src/simsopt/geo/surfaceobjectives.py: Iotas", "src/simsopt/geo/surfaceobjectives.py: MajorRadius", "src/simsopt/geo/boozersurface.py: solve_residual_equation_exactly_newton"]}
{"id": "C117", "title": "Gradients of objectives on least squares Boozer surfaces: exact for surface labels, wrong for labels that depend on the coils", "statement": "For a BoozerLS surface (minimum of the penalty objective), with or without 1/|B| weighting and with G an unknown or fixed (then with fixed currents), the vjp of the gradient of the penalty objective is its derivative in the coils at fixed label, and the gradient of every objective assembled from it (Iotas, MajorRadius, BoozerResidual with its direct part) is the total derivative for every motion of the coils, provided the label depends on the surface only. If the label depends on the coils (ToroidalFlux), the assembled gradient misses adj . (derivative of the label terms in the coils); a concrete case has gradient 0 while the objective moves at rate 1.", "quantifier": "every surface, quadrature, coil set, weight, label with first and second derivatives, and motion of the coils", "why_tests_cant": "a statement about all motions of all coil sets through an implicitly defined minimiser, including mixed second derivatives", "anchors": ["src/simsopt/geo/surfaceobjectives.py: boozer_surface_dlsqgrad_dcoils_vjp", "src/simsopt/geo/surfaceobjectives.py: boozer_surface_residual_dB", "src/simsopt/geo/surfaceobjectives.py: BoozerResidual", "src/simsopt/geo/boozersurface.py: minimize_boozer_penalty_constraints_newton"]}
{"id": "C118", "title": "NonQuasiSymmetricRatio: sign, zero set, best approximation, and exact partial derivatives", "statement": "For every grid, field and non-degenerate surface normal, NonQuasiSymmetricRatio.J is >= 0 and is 0 exactly if |B| on the grid depends on theta alone (on phi alone in the quasi-poloidal case). J times the mean square of the symmetric part is the smallest weighted mean square distance from |B| to any symmetric function. J is unchanged by rescaling the field or the normals. dJ_by_dB and dJ_by_dsurfacecoefficients are together the total derivative of J along every motion of surface and field, and with the adjoint of an exactly solved Boozer surface they give the derivative of J in the coils.", "quantifier": "every grid size, axis choice, field, surface representation linear in its dofs, and differentiable motion", "why_tests_cant": "a variational statement over all symmetric functions and an identity of derivatives for all motions; tests compare one Taylor series", "anchors": ["src/simsopt/geo/surfaceobjectives.py: NonQuasiSymmetricRatio.compute", "src/simsopt/geo/surfaceobjectives.py: NonQuasiSymmetricRatio.dJ_by_dB", "src/simsopt/geo/surfaceobjectives.py: NonQuasiSymmetricRatio.dJ_by_dsurfacecoefficients"]}
{"id": "C119", "title": "QfmResidual lies in [0, 1], with exact extreme cases and exact gradient", "statement": "For every surface grid with non-zero normals and field with no null on it, QfmResidual.J lies between 0 and 1; it is 0 exactly if the field is tangential at every grid point and 1 exactly if it is normal at every grid point; it does not change when field or normals are rescaled. dJ_by_dsurfacecoefficients is the derivative of J in the surface coefficients for every differentiable field.", "quantifier": "every number of grid points, field, normals, and motion of the surface", "why_tests_cant": "range and extreme cases quantify over all fields; tests compare finite differences for one surface", "anchors": ["src/simsopt/geo/surfaceobjectives.py: QfmResidual.J", "src/simsopt/geo/surfaceobjectives.py: QfmResidual.dJ_by_dsurfacecoefficients"]}
{"id": "C12", "title": "full_x set/get round trip and its length contract", "statement": "After `obj.full_x = v` with len(v) = full_dof_size, `obj.full_x` returns v. A longer vector is not rejected: its tail is silently dropped. With a shorter one, the blocks of dofs before the one in which it ends are assigned, all others keep their values, and DofLengthMismatchError is raised, so the assignment is applied partially.", "quantifier": "every dependency graph and every vector of every length", "why_tests_cant": "all graphs and all lengths", "anchors": ["src/simsopt/_core/optimizable.py:Optimizable.full_x"]}
{"id": "C120", "title": "NormalField: mode numbering, names, set/get, resolution changes; the array copy is not kept in step with the dofs", "statement": "For every resolution, get_index_in_dofs numbers the sine modes (without (0,0)) and, without stellarator symmetry, the cosine modes 0..ndof-1 without gap or collision, raises for everything else, and the i-th dof name is the name of mode i. While the arrays have the object's resolution and agree with the dofs, set_vns/set_vnc change exactly the mode they name and keep the agreement; change_resolution keeps every common mode and zeroes new ones. Outside that state the code loses data: changes made through x are thrown away by the next set_vns/set_vnc and never seen by the array getters; set_vns_asarray zeroes all modes with m = mpol, and set_vns then raises for them; after change_resolution, or with a padded array, set_vns(m,n) changes another toroidal mode; an array too narrow is read from the other end of its rows or raises.", "quantifier": "every resolution, symmetry, array shape, mode, value and dof vector", "why_tests_cant": "a bijection for all resolutions and a frame property over all modes; the tests use one SPEC file and a few modes", "anchors": ["src/simsopt/field/normal_field.py: NormalField.get_index_in_dofs", "src/simsopt/field/normal_field.py: NormalField.get_dofs", "src/simsopt/field/normal_field.py: NormalField.set_vns", "src/simsopt/field/normal_field.py: NormalField.change_resolution", "src/simsopt/field/normal_field.py: NormalField.set_vns_asarray", "src/simsopt/field/normal_field.py: NormalField._make_names_helper"]}
{"id": "C121", "title": "Fourier transforms of a scalar on a surface are inverse to each other", "statement": "For a SurfaceRZFourier on any of the grids the surface classes produce, fourier_transform_scalar applied to the output of inverse_fourier_transform_scalar returns the coefficient arrays (sine and cosine, and the constant), for every normalization, whenever the grid resolves the modes (2 mpol < ntheta, and 2 ntor < nphi per field period; on half period grids only for stellarator symmetric series).  On a field period grid with 2 ntor or 2 ntor + 1 points in phi and 2 mpol or 2 mpol + 1 points in theta, transforming any scalar and back returns the scalar itself; with stellsym the part of it that is odd under (phi, theta) -> (-phi, -theta).  On half period grids the modes |n| = nphi/2, which that grid does resolve, come back halved.", "quantifier": "every grid size, number of field periods, mode numbers, normalization, coefficient arrays and scalar", "why_tests_cant": "tests transform one scalar on one grid; the inverse property and the Nyquist weights must hold for every parity of the two grid sizes and every scalar", "anchors": ["src/simsopt/geo/surfacerzfourier.py: SurfaceRZFourier.fourier_transform_scalar", "src/simsopt/geo/surfacerzfourier.py: SurfaceRZFourier.inverse_fourier_transform_scalar"]}
{"id": "C122", "title": "The dofs of a ReducedCoilSet place the coils", "statement": "For a ReducedCoilSet with singular vectors v_i and reference configuration c0, assigning the dofs (all, or the free ones while the fixed ones keep their value) sets the dofs of the coil set to c0 + sum_i x_i v_i, whatever was done before; a vector of the wrong length is refused without effect.  If the rows are orthonormal, distances between amplitude vectors equal distances between coil configurations, each amplitude can be read off the coils, and with the singular value decomposition of a jacobian the i-th amplitude changes the objectives by s_i times the i-th left vector.  Rebuilding the basis never moves the coils: the current position becomes the reference and all amplitudes are zero and free.  Changing nsv moves no coil, keeps the amplitudes that remain, and is refused beyond the number of singular values; the coils then still are where the dofs say exactly if the amplitudes that were dropped contribute nothing.", "quantifier": "every number of dofs, reference, matrices, amplitude vector and finite sequence of assignments, fixings, nsv changes, rebuilds and assignments to the inner coil set", "why_tests_cant": "tests assign one vector; the relation must survive every order of operations and every basis", "anchors": ["src/simsopt/field/coilset.py: ReducedCoilSet.__init__, ReducedCoilSet.set_dofs, ReducedCoilSet.nsv, ReducedCoilSet.recalculate_reduced_basis"]}
{"id": "C123", "title": "The coils, field and dependencies of a CoilSet belong together", "statement": "A CoilSet built from base coils holds all their symmetric copies, its BiotSavart object is made of exactly those coils with the points of the set's surface, and total_length is the sum of the lengths of all of them.  Assigning a surface keeps coils and field and moves the field's points to it; a surface with another number of field periods is refused.  A penalty of the set whose objective has one parent depends on the set and its ancestors only.  Assigning base_coils replaces base coils and field but leaves the attribute coils, so distances and exports are those of the old coils; a penalty that is a sum keeps every second of its former parents besides the set.", "quantifier": "every list of base coils, symmetry, surface, curve lengths, and every reachable dependency graph", "why_tests_cant": "tests look at one coil set; which objects stay attached must hold for every dependency graph and history", "anchors": ["src/simsopt/field/coilset.py: CoilSet.__init__, CoilSet.base_coils, CoilSet.surface, CoilSet.total_length, CoilSet.flux_penalty, CoilSet.length_penalty, CoilSet.lp_curvature_penalty"]}
{"id": "C124", "title": "Equally spaced coils are equally spaced", "statement": "The curves of create_equally_spaced_curves for a number of field periods and a symmetry, after coils_via_symmetries with the same two, are circles around a circular axis at the N angles (j + 1/2) 2 pi / N, each exactly once, N being the total number of coils; copies run through backwards carry the opposite current, so all coils are the same conductor.  CoilSet.for_surface gives such a set for a stellarator symmetric surface.  For other surfaces it gives as many coils at only half as many angles, two equal coils on top of each other at each.", "quantifier": "every number of curves, field periods, symmetry, radii, order, current and quadrature points", "why_tests_cant": "tests use one configuration; that no two coils coincide must hold for every count and symmetry", "anchors": ["src/simsopt/geo/curve.py: create_equally_spaced_curves", "src/simsopt/field/coilset.py: CoilSet.for_surface"]}
{"id": "C125", "title": "Frames of finite build coils", "statement": "At every quadrature point of a curve with non-zero curvature (Frenet) or whose tangent line misses the centroid (centroid), rotated_frame is a right-handed orthonormal frame whose first vector is the tangent; unrotated, the second vector of the centroid frame lies in the plane of tangent and centroid and points away from the centroid.  rotated_frame_dash is its derivative along the curve: always for the Frenet frame, for the centroid frame if the mean of gammadash over the quadrature points vanishes, which full-period curves with more points than their order have; otherwise the frame torsion is off by an explicit term.  The frame torsion of the Frenet frame is torsion minus d alpha/dl and its binormal curvature is curvature times sin alpha, so CoilStrain returns the documented strains.  FrameRotation is a Fourier series linear in its dofs with the stated derivative.  A CurveFilament stays at the constant distance (dn, db) in the normal plane of the frame and its gammadash is its derivative; create_multifilament_grid lays the filaments on the centred rectangular grid with the stated spacings, each position once.", "quantifier": "every smooth curve, rotation, quadrature points, table of Fourier coefficients, shifts, grid sizes, gaps and width", "why_tests_cant": "tests compare against finite differences on a few curves with the default number of points", "anchors": ["src/simsopt/geo/framedcurve.py: FramedCurveFrenet.rotated_frame, FramedCurveFrenet.rotated_frame_dash, FramedCurveFrenet.frame_torsion, FramedCurveFrenet.frame_binormal_curvature, FramedCurveCentroid.rotated_frame, FramedCurveCentroid.rotated_frame_dash, FramedCurveCentroid.frame_torsion, FramedCurveCentroid.frame_binormal_curvature, FrameRotation", "src/simsopt/geo/finitebuild.py: CurveFilament, create_multifilament_grid", "src/simsopt/geo/strain_optimization.py: CoilStrain"]}
{"id": "C126", "title": "Symmetries of CurveXYZFourierSymmetries and CurveHelical", "statement": "A CurveXYZFourierSymmetries is closed; advancing the parameter by k/nfp rotates it by 2 pi k ntor/nfp, hence (ntor and nfp coprime, otherwise refused) some advance rotates it by 2 pi/nfp exactly; with stellsym the curve is its own mirror image under (x,y,z) -> (x,-y,-z), t -> -t.  Each dof contributes the basis function its name says, each once, num_dofs in total.  A CurveHelical is closed, lies on the torus with radii R0 and r, has n0-fold symmetry if l0 and n0 are coprime, is stellarator symmetric if the A coefficients vanish, and the first B coefficient has no effect.", "quantifier": "every order, nfp, ntor, symmetry flag, dof vector, parameter and integer shift", "why_tests_cant": "tests look at a handful of curves and points; the symmetry must be exact for all dofs and all parameters", "anchors": ["src/simsopt/geo/curvexyzfouriersymmetries.py: jaxXYZFourierSymmetriescurve_pure, CurveXYZFourierSymmetries", "src/simsopt/geo/curvehelical.py: jaxHelicalfouriercurve_pure, CurveHelical"]}
{"id": "C127", "title": "Analytic toroidal, poloidal and mirror fields", "statement": "Off the axis, ToroidalField is R0 B0/R along e_phi, its dB_by_dX[j,l] is d_j B_l, it is divergence and curl free, its A is a vector potential of it; dA_by_dX has the two indices exchanged and agrees with the documented order only if R0 B0 = 0, and d2A comes with the component first; d2B is the second derivative except for the entry xxx, which is right only where x = 0 or y = -1.  PoloidalField is (B0/(R0 q)) times the distance to the circle R = R0 along e_theta; its dB_by_dX is transposed, and therefore the GradAbsB computed from it is minus the gradient of |B|.  MirrorModel is the field of its flux function, divergence free, and dB_by_dX is its gradient.", "quantifier": "every choice of the parameters and every point off the axis (off the circle R = R0 for the poloidal field, off z = 0 for the potential)", "why_tests_cant": "a test evaluates at random points with one set of parameters, and derivative tests by Taylor expansion of symmetric Jacobians cannot see a transposition", "anchors": ["src/simsopt/field/magneticfieldclasses.py: ToroidalField, PoloidalField, MirrorModel", "src/simsoptpp/magneticfield.h: _GradAbsB_impl"]}
{"id": "C128", "title": "The field of a DipoleField", "statement": "Away from the dipoles B is mu0/4 pi times the sum of 3 (m.r) r/|r|^5 - m/|r|^3 over the dipoles, dB_by_dX[j,l] = d_j B_l, symmetric and trace free; A is a vector potential of B, but dA_by_dX has its indices exchanged and agrees with the documented order only where B vanishes.  The dipoles of a DipoleField are the given ones, with moments given in the Cartesian, cylindrical or toroidal basis at the dipole, and with stellsym their mirror images (moments as axial vectors), each turned by every multiple of 2 pi/nfp; so the field repeats after a turn by 2 pi/nfp, and with stellsym B(x,-y,-z) = (-Bx, By, Bz)(x,y,z).", "quantifier": "every list of dipoles, nfp, symmetry flag, coordinate flag, R0, and every point that is not a dipole", "why_tests_cant": "tests compare a few dipoles at a few points with rtol", "anchors": ["src/simsoptpp/dipole_field.cpp: dipole_field_B, dipole_field_dB, dipole_field_A, dipole_field_dA", "src/simsopt/field/magneticfieldclasses.py: DipoleField"]}
{"id": "C129", "title": "The inductance matrix of the permanent magnets is the normal field of the dipoles", "statement": "For every evaluation point with normal n, the row of dipole_field_Bn times the vector of moments (in the basis of the coordinate flag) is n.B of the DipoleField built from the same moments, grid, nfp, symmetry and coordinate flag.  So the residual A m - b minimised by RCLS and GPMO is the normal field that the resulting DipoleField has.", "quantifier": "every grid of dipoles, moments, point, normal, nfp, symmetry flag, coordinate flag and R0", "why_tests_cant": "the two codes repeat the placement and the change of basis independently; a test compares them for the grids it builds", "anchors": ["src/simsoptpp/dipole_field.cpp: dipole_field_Bn", "src/simsopt/field/magneticfieldclasses.py: DipoleField"]}
{"id": "C13", "title": "Changing any dof flags every dependent object for recomputation", "statement": "After `obj.x = v`, `obj.set(...)`, `obj.local_full_x = v` etc. every object whose lineage contains an object using the modified DOFs (the setter's object or any object sharing its DOFs) has its recompute flag set, and no object that does not depend on it is flagged.", "quantifier": "every acyclic graph, every sharing pattern, every target object", "why_tests_cant": "unbounded graphs and sharing patterns", "anchors": ["src/simsopt/_core/optimizable.py:Optimizable.set_recompute_flag", "src/simsopt/_core/optimizable.py:DOFs._flag_recompute_opt"]}
{"id": "C130", "title": "Rotational transform on the magnetic axis", "statement": "For an axis that is a field line of a field without currents, with B_phi non-zero on it, compute_on_axis_iota integrates the linearisation of the field line equations dR/dphi = R B_R/B_phi, dZ/dphi = R B_Z/B_phi about the axis; the matrix whose eigenvalue it takes maps, transposed, the displacement of every neighbouring field line (to first order) at phi = 0 to the one a field period later, and preserves area.  The result lies in (-nfp/2, nfp/2]; if the trace of the matrix is less than 2 in magnitude there are coordinates in which every neighbouring line turns by exactly 2 pi iota/nfp per field period, otherwise the result is 0 or nfp/2.  The sign depends on which eigenvalue comes first.  With currents the matrix integrated differs from the linearisation by the stated terms in curl B, because dB_by_dX is read with its indices exchanged.", "quantifier": "every differentiable field with the documented Jacobian, every axis, number of field periods and eigenvalue returned", "why_tests_cant": "tests compare the result for a few coil sets with iota from field line tracing to a few digits; the coils' field is current free so the exchange of indices is invisible", "anchors": ["src/simsopt/field/magnetic_axis_helpers.py: compute_on_axis_iota"]}
{"id": "C131", "title": "The Reiman model field", "statement": "Away from the axis and from the circle R = 1, Z = 0, dB_by_dX[j,l] = d_j B_l along every path, the field is divergence free, B_phi = -1, and R B_R, R B_Z are the derivatives of the flux function iota0 r^2/2 + iota1 r^4/4 - sum eps_k r^k cos(k theta - m0 phi).  Without modes the field lines stay on circular tori and turn by iota0 + iota1 r^2.  The field has m0 field periods and is stellarator symmetric.", "quantifier": "every iota0, iota1, list of integer modes with amplitudes, m0 and every such point", "why_tests_cant": "tests evaluate the derivative by finite differences at a few points for one set of modes", "anchors": ["src/simsoptpp/reiman.cpp: ReimanB, ReimandB", "src/simsopt/field/magneticfieldclasses.py: Reiman"]}
{"id": "C132", "title": "Fields given by a scalar potential", "statement": "For every potential expression phi(R, phi, Z) built from constants, + - * /, natural powers, sin, cos, exp, log and sqrt, ScalarPotentialRZMagneticField.B() at a point off the axis is the gradient of the potential in cartesian components, within 2e-30 |phi R Z| per component (the terms added for sympy).  Off the half plane where the angle jumps, dB_by_dX()[j,l] is the derivative of component l of that gradient along x_j within 2e-30 |phi R Z| (1 + 1/R); the exact derivatives are symmetric, and their trace is the Laplacian of the potential, so that the field is divergence free exactly when the potential is harmonic.", "quantifier": "every expression and every point where its divisions, logarithms and roots are defined", "why_tests_cant": "tests use one Dommaschk-like potential and a few points", "anchors": ["src/simsopt/field/magneticfieldclasses.py: ScalarPotentialRZMagneticField"]}
{"id": "C133", "title": "Self field and forces of coils", "statement": "For a circular coil B_regularized_circ is mu0 I/(4 pi R)(ln(8R/a) - 3/4) along the axis direction, and B_regularized_rect is mu0 I/(4 pi R)(ln(8R/sqrt(ab)) + 13/12 - k/2), exactly, at every quadrature point and for every number of points (the two parts of the regularised integrand cancel); the self force points outwards.  B is proportional to the current, unchanged by exchanging the sides of the rectangle, divided by l when coil and conductor are l times as large, and B, coil_force, LpCurveForce and MeanSquaredForce turn with the coils under rigid motions.  coil_force is I t x (B_self + field of all other coils), perpendicular to the conductor.  LpCurveForce.J is the documented integral times the number of quadrature points; it is not negative and zero exactly when the force nowhere exceeds the threshold.  MeanSquaredForce.J is the arclength average of |F|^2, between its smallest and largest value.  dJ of both pairs with every variation of the coil's curve, its current and all other coils to the derivative of J.", "quantifier": "every radius, cross section, current, list of quadrature points and coils, rotation and translation; the gradient for every differentiable motion of the coils that keeps the coil off the quadrature points of the others, given that jax's grad returns the partial derivatives", "why_tests_cant": "tests compare one circle to a few digits, check the objective against the same formula, and Taylor-test the gradient for one coil set", "anchors": ["src/simsopt/field/selffield.py: rectangular_xsection_k, rectangular_xsection_delta, regularization_circ, regularization_rect, B_regularized_singularity_term, B_regularized_pure, B_regularized", "src/simsopt/field/force.py: coil_force, coil_force_pure, self_force, lp_force_pure, LpCurveForce, mean_squared_force_pure, MeanSquaredForce"]}
{"id": "C134", "title": "Fourier interpolation of periodic data", "statement": "fourier_interpolation applied to N samples of a trigonometric polynomial of degree at most N/2 (without the sine of mode N/2 when N is even) returns that polynomial exactly at every point that is not a sample point; for arbitrary data it is, off the samples, one trigonometric polynomial of degree at most N/2 that takes the data as values at the samples; at a sample point the returned value differs from the datum by at most a constant times the machine-precision shift eps.  It returns one value per point, is linear in the data, reproduces constants and has period 2 pi.", "quantifier": "every number of samples, even or odd, all data, all points, all shifts eps", "why_tests_cant": "tests interpolate a few functions on a few grid sizes and compare to some digits", "anchors": ["src/simsopt/util/fourier_interpolation.py: fourier_interpolation"]}
{"id": "C135", "title": "Rejection sampling on curves and surfaces", "statement": "draw_uniform_on_curve either raises AssertionError (exactly when at most nsamples attempts are accepted) or returns exactly nsamples quadrature points of the curve with their indices, sorted, which are the first nsamples accepted draws.  An attempt at point k is accepted exactly when its uniform number lies below a bound p_k in [0, 1], and p_k divided by the sum of all bounds is the share of point k in the total length, so an accepted draw hits each point with probability proportional to its arclength; the longest element is always accepted.  Moving or scaling the curve leaves the drawn indices unchanged.  draw_uniform_on_surface does the same with index pairs inside the grid, in lexicographic order, weighted by the area element at exactly the returned pair (arrays in C order).", "quantifier": "every list of arclengths or area elements that are not all zero, every sequence of random numbers, every number of samples and grid size", "why_tests_cant": "tests draw a few samples with one seed and look at counts", "anchors": ["src/simsopt/field/sampling.py: draw_uniform_on_curve, draw_uniform_on_surface"]}
{"id": "C14", "title": "A cached objective is never stale", "statement": "If an object caches its value and only recomputes when its recompute flag is set, then after any interleaving of dof assignments anywhere in the graph and evaluations, each evaluation returns the value the function has at the current dofs.", "quantifier": "every graph, every finite interleaving of writes and evaluations", "why_tests_cant": "unbounded interleavings", "anchors": ["src/simsopt/_core/optimizable.py:Optimizable.set_recompute_flag", "src/simsopt/_core/optimizable.py:Optimizable.recompute_bell"]}
{"id": "C15", "title": "fix/unfix anywhere updates the free dimension of every dependent", "statement": "After fix/unfix/fix_all/unfix_all/full_fix/full_unfix on an object, dof_size and index blocks of every descendant and of every descendant of an object sharing the DOFs are up to date (equal to the value recomputed from scratch).", "quantifier": "every graph and every history of status changes", "why_tests_cant": "unbounded graphs and histories", "anchors": ["src/simsopt/_core/optimizable.py:DOFs._update_opt_indices", "src/simsopt/_core/optimizable.py:Optimizable.update_free_dof_size_indices", "src/simsopt/_core/optimizable.py:Optimizable.full_fix", "src/simsopt/_core/optimizable.py:Optimizable.full_unfix"]}
{"id": "C16", "title": "Removing one of two identical parents keeps the dependency alive", "statement": "pop_parent removes the given entry of the parent list and the child link of that parent; notifications of changed values travel exactly along child links. So when parents are listed without repetition the object keeps depending on all others and only on them; when a parent is listed twice and popped once, it is still a parent but its changes are no longer notified.", "quantifier": "every graph and every edit history", "why_tests_cant": "edit histories are unbounded", "anchors": ["src/simsopt/_core/optimizable.py:Optimizable.pop_parent", "src/simsopt/_core/optimizable.py:Optimizable._remove_child"]}
{"id": "C17", "title": "Bounds of a composite object", "statement": "`obj.lower_bounds = v` followed by `obj.lower_bounds` returns v for len(v) = dof_size, and does not change x or status; a wrong length raises ValueError and changes nothing; the same for upper_bounds. `obj.full_lower_bounds = v` never stores anything: it raises ValueError unless len(v) is the number of free dofs, AttributeError otherwise, and changes nothing.", "quantifier": "every graph and vector", "why_tests_cant": "all graphs", "anchors": ["src/simsopt/_core/optimizable.py:Optimizable.lower_bounds", "src/simsopt/_core/optimizable.py:Optimizable.full_lower_bounds", "src/simsopt/_core/optimizable.py:Optimizable.upper_bounds"]}
{"id": "C18", "title": "make_optimizable calls the user function with the arguments in the original positions", "statement": "For make_optimizable(func, *args, dof_indicators, **kwargs), J() calls func with exactly the original positional arguments and keyword arguments when no dof has been changed, and when the dofs have been changed each 'dof' argument is replaced by the current value and all non-dof and opt arguments are untouched.", "quantifier": "every argument list, every indicator list and every current dof vector", "why_tests_cant": "all interleavings of dof/non-dof/opt arguments", "anchors": ["src/simsopt/_core/optimizable.py:make_optimizable"]}
{"id": "C19", "title": "Names of objects, and what equal names do", "statement": "Objects of one class have different names. All objects ever made by make_optimizable have the same name TempOptimizable1, since each call defines a new class with its own counter. The ancestors of an object always have pairwise different names: of several parents with one name only one is kept as an ancestor, and the dofs of the others are missing from the vectors of the child.", "quantifier": "every sequence of make_optimizable calls", "why_tests_cant": "the number of objects is unbounded", "anchors": ["src/simsopt/_core/optimizable.py:make_optimizable", "src/simsopt/_core/util.py:InstanceCounterMeta"]}
{"id": "C20", "title": "Finite difference step sizes are positive and never below the absolute step", "statement": "finite_difference_steps(x, abs, rel) either raises or returns an array of len(x) with every entry equal to max(|x_i| rel, abs) and strictly positive; it raises exactly when abs<0, rel<0 or some step is zero.", "quantifier": "every vector and every pair of step parameters", "why_tests_cant": "all real inputs", "anchors": ["src/simsopt/_core/util.py:finite_difference_steps"]}
{"id": "C21", "title": "Parallel loop bounds tile the index range", "statement": "parallel_loop_bounds(comm, n) over all ranks gives half open intervals that are disjoint, cover [0,n), are ordered by rank and differ in length by at most one.", "quantifier": "every n >= 0 and every communicator size >= 1", "why_tests_cant": "all n and sizes", "anchors": ["src/simsopt/_core/util.py:parallel_loop_bounds"]}
{"id": "C22", "title": "Derivative arithmetic is linear", "statement": "(a+b), (a-b), c*a, a*c, += and -= act entrywise on the stored partial derivatives for every object key, with missing keys treated as zero; the operands of +, -, * are not modified; addition is commutative and associative and scalar multiplication distributes.", "quantifier": "every pair of derivatives over any set of objects and any real scalars", "why_tests_cant": "all key sets and values", "anchors": ["src/simsopt/_core/derivative.py:Derivative.__add__", "src/simsopt/_core/derivative.py:Derivative.__sub__", "src/simsopt/_core/derivative.py:Derivative.__mul__", "src/simsopt/_core/derivative.py:Derivative.__iadd__", "src/simsopt/_core/derivative.py:Derivative.__isub__"]}
{"id": "C23", "title": "The gradient of an object is the concatenation of the free partials over its unique DOFs", "statement": "`D(obj)` has length obj.dof_size; the block belonging to the i-th unique DOFs of the lineage is the sum, over all objects using that DOFs instance (inside or outside the lineage), of their stored partials restricted to free entries (zero if none); partials of objects whose DOFs the lineage does not use are ignored; D is not changed in meaning; if nothing is free ValueError is raised. For a linear functional with these partials, the change caused by obj.x = v is D(obj).(v - x). With as_derivative=True exactly the entries of the objects using DOFs of the lineage are returned, sharing their arrays with D.", "quantifier": "every derivative, every graph and sharing pattern, every free/fixed pattern", "why_tests_cant": "all graphs", "anchors": ["src/simsopt/_core/derivative.py:Derivative.__call__"]}
{"id": "C24", "title": "Sums and scalar multiples of objectives have the sum and scalar multiple as value and gradient", "statement": "(f+g).J() = f.J()+g.J(), (c*f).J() = c*f.J(), sum([...]).J() is the sum, and the same for dJ with respect to any root.", "quantifier": "every list of objectives and every scalar", "why_tests_cant": "unbounded expression trees", "anchors": ["src/simsopt/_core/optimizable.py:OptimizableSum", "src/simsopt/_core/optimizable.py:ScaledOptimizable"]}
{"id": "C25", "title": "Saving and loading an object graph preserves contents and sharing", "statement": "Encoding an acyclic graph of objects with distinct names (and no user dictionary with a reserved key) with SIMSON and decoding it succeeds; the loaded value has at every depth the same classes, constructor arguments, list and dict entries and bound methods. If no bound methods occur, the loaded graph is the saved one up to a one-to-one renaming: one table entry and one new object per reachable object, shared exactly where it was shared.", "quantifier": "every acyclic object graph with distinct names", "why_tests_cant": "all graphs, of any size and sharing pattern", "anchors": ["src/simsopt/_core/json.py:SIMSON", "src/simsopt/_core/json.py:GSONDecoder", "src/simsopt/_core/json.py:GSONable.as_dict"]}
{"id": "C26", "title": "Objects with equal names are not confused by serialization", "statement": "Saving a graph holding two different objects with the same name should preserve both. (Refuted: the second is replaced by a reference to the first.)", "quantifier": "every graph", "why_tests_cant": "all graphs", "anchors": ["src/simsopt/_core/json.py:GSONEncoder", "src/simsopt/_core/json.py:GSONable.as_dict"]}
{"id": "C27", "title": "Finite difference Jacobians are exact on affine maps and leave x unchanged", "statement": "For every map affine in x the forward and centered FiniteDifference.jac() return the exact matrix for any valid steps (centered is also exact on quadratics), with one column per free dof; if no evaluation raises, opt.x after jac() equals opt.x before it.", "quantifier": "every affine map, point and step vector", "why_tests_cant": "all maps and points", "anchors": ["src/simsopt/_core/finite_difference.py:FiniteDifference.jac"]}
{"id": "C28", "title": "Number of columns of a finite difference Jacobian", "statement": "All matrices returned by one FiniteDifference object have as many columns as there were free dofs at its first successful evaluation, whatever has been fixed or unfixed since: with n free dofs now, the first n columns are the difference quotients and the remaining ones zero if n is not larger, and the call raises if n is larger. While the number of free dofs is that of the first call the matrix has dof_size columns.", "quantifier": "every history of fix/unfix and jac calls", "why_tests_cant": "unbounded histories", "anchors": ["src/simsopt/_core/finite_difference.py:FiniteDifference.jac"]}
{"id": "C29", "title": "The MPI finite difference Jacobian equals the serial one for any number of groups", "statement": "For every number of worker groups the distributed column evaluation followed by the SUM reduction gives the same matrix as the serial algorithm, each column evaluated exactly once.", "quantifier": "every number of groups, every problem size", "why_tests_cant": "all process counts", "anchors": ["src/simsopt/_core/finite_difference.py:MPIFiniteDifference"]}
{"id": "C30", "title": "MPI groups partition the processes", "statement": "For every number of processes and requested groups, the number of groups is clamped to [1, nprocs]; groups are non-empty contiguous rank ranges numbered in rank order, sizes differ by at most one, each has exactly one leader, its lowest rank, rank 0 leads group 0 and the leaders communicator ranks equal the group numbers.", "quantifier": "every nprocs >= 1 and every requested ngroups (or None)", "why_tests_cant": "all process counts", "anchors": ["src/simsopt/util/mpi.py:MpiPartition"]}
{"id": "C31", "title": "Worker and leader loops all terminate and every mobilized call is executed by the whole group", "statement": "In every run of apart/together with any list of tasks from the leader, all workers run each task exactly once in order and exit after stop; no deadlock.", "quantifier": "every number of processes and every task list", "why_tests_cant": "unbounded executions", "anchors": ["src/simsopt/util/mpi.py:MpiPartition.worker_loop", "src/simsopt/util/mpi.py:MpiPartition.leaders_loop", "src/simsopt/util/mpi.py:MpiPartition.apart"]}
{"id": "C32", "title": "The least squares objective is the squared norm of the residual vector", "statement": "objective(x) = sum_i w_i (f_i - g_i)^2 = ||residuals(x)||^2 for non-negative weights, and from_sigma with sigma gives weight 1/sigma^2.", "quantifier": "every tuple list and weights", "why_tests_cant": "all values", "anchors": ["src/simsopt/objectives/least_squares.py:LeastSquaresProblem"]}
{"id": "C33", "title": "Least squares residuals are always those of the current dofs", "statement": "After any interleaving of x assignments and evaluations, residuals()/objective() return the value at the current x, with every function evaluated at most once per x; a failing evaluation after a successful one returns the failure vector of the same length as a successful one.", "quantifier": "every history of x assignments, evaluations and failures", "why_tests_cant": "unbounded histories with failures at any point", "anchors": ["src/simsopt/objectives/least_squares.py:LeastSquaresProblem.unweighted_residuals"]}
{"id": "C34", "title": "Failure vector length after a retried first evaluation", "statement": "The vector returned when an evaluation fails has the length of a successful residual vector plus the number of residuals computed in every evaluation that raised before the first success. So a user who retries after a failed first evaluation gets failure vectors that are too long, and residuals()/objective() raise on them.", "quantifier": "every history, every failure position", "why_tests_cant": "all crash points and unbounded histories", "anchors": ["src/simsopt/objectives/least_squares.py:LeastSquaresProblem.unweighted_residuals"]}
{"id": "C35", "title": "Concatenating least squares problems keeps each goal and weight with its function", "statement": "p+q has objective p.objective()+q.objective() for every pair of problems. Holds when each problem lists the functions of the same object consecutively; refuted when they interleave.", "quantifier": "every pair of problems", "why_tests_cant": "all orders of functions", "anchors": ["src/simsopt/objectives/least_squares.py:LeastSquaresProblem.__add__", "src/simsopt/_core/optimizable.py:Optimizable.__call__"]}
{"id": "C36", "title": "Constraint values reported to the solver are non-positive exactly when the bounds hold", "statement": "With at least one finite bound, lower bounds different from +inf and upper bounds different from -inf, all reported entries are <= 0 iff l <= c <= u in every component of every constraint. With no finite bound the call raises ValueError; a lower bound +inf (never satisfiable) is not reported.", "quantifier": "every number of constraints, every value, scalar or per-component bounds with infinities", "why_tests_cant": "all real values and shapes", "anchors": ["src/simsopt/objectives/constrained.py:ConstrainedProblem"]}
{"id": "C37", "title": "Constrained problem caches are coherent", "statement": "objective() and nonlinear_constraints() return the values at the current x after any interleaving of x assignments, recompute flags and calls of either with or without x, also when functions fail: the results are those of a problem without caches. The failure vector has the length of a successful one plus the entries computed in raised first evaluations.", "quantifier": "every history", "why_tests_cant": "unbounded histories", "anchors": ["src/simsopt/objectives/constrained.py:ConstrainedProblem.objective", "src/simsopt/objectives/constrained.py:ConstrainedProblem.nonlinear_constraints"]}
{"id": "C38", "title": "coils_via_symmetries generates the complete symmetric set in a fixed order", "statement": "For n base coils, nfp and stellsym the result has n*nfp*(1+stellsym) coils; entry with index ((k*(1+stellsym)+f)*n+i) is base coil i rotated by 2*pi*k/nfp and, for f=1, flipped with current negated; the resulting set of curves is invariant under rotation by 2*pi/nfp and, with stellsym, under the stellarator reflection.", "quantifier": "every list of base coils, nfp >= 1 and both symmetry flags", "why_tests_cant": "all sizes", "anchors": ["src/simsopt/field/coil.py:coils_via_symmetries", "src/simsopt/field/coil.py:apply_symmetries_to_curves", "src/simsopt/field/coil.py:apply_symmetries_to_currents"]}
{"id": "C39", "title": "Current algebra and its vjp", "statement": "get_value of any expression built with +, -, * and negation of currents equals the arithmetic of the base values, and vjp is its adjoint derivative.", "quantifier": "every expression tree", "why_tests_cant": "unbounded trees", "anchors": ["src/simsopt/field/coil.py:Current", "src/simsopt/field/coil.py:ScaledCurrent", "src/simsopt/field/coil.py:CurrentSum"]}
{"id": "C40", "title": "Quadratic penalty value and gradient", "statement": "QuadraticPenalty.J is 0.5*max(0, f-c)^2 for 'max', 0.5*min(0,f-c)^2 for 'min' and 0.5*(f-c)^2 for 'identity', is non-negative, vanishes exactly when the constraint holds, and dJ is its derivative.", "quantifier": "every value and threshold", "why_tests_cant": "all reals", "anchors": ["src/simsopt/objectives/utilities.py:QuadraticPenalty"]}
{"id": "C41", "title": "Magnetic field evaluations are never stale", "statement": "For every history of set_points / set_points_cyl / dof changes / cache clearing / evaluations on a BiotSavart field, B, dB_by_dX, d2B_by_dXdX, A, dA_by_dX, d2A_by_dXdX, AbsB, GradAbsB, B_cyl, A_cyl, GradAbsB_cyl, get_points_cart and get_points_cyl return the values for the points set last and the current coils, provided every dof change happened while the field (with its ancestors) had at least one free dof; if everything was fixed when a dof was changed, an already cached quantity keeps its old value (exactly characterised).", "quantifier": "all coil sets, all histories, all quantities", "why_tests_cant": "the caches make the answer depend on the whole history of calls", "anchors": ["src/simsoptpp/magneticfield.h", "src/simsoptpp/cachedtensor.h", "src/simsoptpp/magneticfield_biotsavart.cpp", "src/simsopt/field/magneticfield.py:MagneticField.recompute_bell"]}
{"id": "C42", "title": "Per-coil fields and potentials used for current derivatives", "statement": "dB_by_dcoilcurrents / d2B_by_dXdcoilcurrents / d3B_by_dXdXdcoilcurrents return the field of each coil for unit current at the current points after every history (a too small compute_derivatives argument gives an AssertionError or the right result). For the vector potential (dA_by_dcoilcurrents etc., used by A_vjp) this holds exactly when the potential was evaluated to that order since the last change of points or coils; if it was never evaluated the arrays are zero, and after set_points with the same number of points the arrays of the old points are returned.", "quantifier": "all coil sets, all histories, all orders of derivative", "why_tests_cant": "depends on what was evaluated before", "anchors": ["src/simsopt/field/biotsavart.py:BiotSavart.dA_by_dcoilcurrents", "src/simsopt/field/biotsavart.py:BiotSavart.A_vjp", "src/simsoptpp/cache.h"]}
{"id": "C43", "title": "Symmetry reduction of evaluation points is exact; it lands in the interpolation domain exactly for non-negative angles", "statement": "For a field with nfp-fold (and, with stellsym=True, stellarator) symmetry, InterpolatedField's symmetry reduction - map every point to the first field period and, with stellsym, to z >= 0, evaluate there, and flip the recorded components back - returns the field at the original point, for every point, in particular for the field of coils made by coils_via_symmetries. For angles in [0, 2 pi) (what set_points_cart produces) the reduced angle is in [0, 2 pi/nfp) and, with stellsym, the reduced z is >= 0. For a negative angle given through set_points_cyl the reduced angle is not in the period: it is <= 0 and zero only at multiples of the period, so the reduction leaves the interpolation domain.", "quantifier": "every point (r, phi, z), nfp > 0, stellsym flag and field with the symmetry; every set of base coils", "why_tests_cant": "all real points and angles, including the boundaries of the periods and both signs", "anchors": ["src/simsoptpp/magneticfield_interpolated.h: exploit_symmetries_points, apply_symmetries_to_B_cyl, apply_symmetries_to_GradAbsB_cyl"]}
{"id": "C44", "title": "Quadrature points", "statement": "get_phi_quadpoints / get_theta_quadpoints return exactly nphi (ntheta) equally spaced strictly increasing points inside the range asked for: for 'full torus' and 'field period' the first is 0 and the end point is excluded, for 'half period' they are the midpoints of equal cells, so the grid is symmetric under phi -> 1/(2 nfp) - phi and two mirrored half periods give the field period, nfp field periods the torus. Half-period grids of fewer than two points raise IndexError, an unknown range an AssertionError; when the range is not given the defaults are used. The range deduced again from the points (as done when a surface is copied or saved) is the range asked for, except that with nfp = 1 a field period is reported as the full torus.", "quantifier": "every nphi >= 1, nfp >= 1, range", "why_tests_cant": "all sizes and field periods", "anchors": ["src/simsopt/geo/surface.py:Surface.get_phi_quadpoints", "src/simsopt/geo/surface.py:Surface.get_theta_quadpoints", "src/simsopt/geo/surface.py:Surface.deduced_range"]}
{"id": "C45", "title": "SurfaceRZFourier dof names, the m and n arrays and the coefficient arrays agree", "statement": "For every SurfaceRZFourier the i-th dof name, the i-th entries of the m and n arrays and the i-th dof denote the same coefficient; the names are distinct and are exactly the modes in range other than (0,n<0), zs/rs(0,0) and, with stellarator symmetry, rs and zc. Setting the dofs and reading them back is the identity and leaves every other coefficient alone; set_rc(m,n,v) etc. followed by get returns v and changes nothing else; out-of-range (m,n) raise. With stellarator symmetry get_rs/get_zc/set_rs/set_zc RETURN a ValueError instance instead of raising it. The (0,n<0) entries can be set through set_rc but are no dof: they are state that survives set_dofs and is invisible in get_dofs.", "quantifier": "every mpol, ntor, stellsym, dof vector, mode (m,n) and value", "why_tests_cant": "all resolutions and modes", "anchors": ["src/simsopt/geo/surfacerzfourier.py:SurfaceRZFourier._make_names", "src/simsopt/geo/surfacerzfourier.py:SurfaceRZFourier.set_rc", "src/simsoptpp/surfacerzfourier.cpp:set_dofs_impl", "src/simsoptpp/surfacerzfourier.cpp:get_dofs"]}
{"id": "C46", "title": "change_resolution preserves common coefficients and zero-pads; fixed_range fixes exactly the range", "statement": "After change_resolution(mpol', ntor') every coefficient (m,n) in both ranges keeps its value and new ones are zero; growing then shrinking is the identity on coefficients and dofs; but the dofs come back all free and unbounded, whatever was fixed or bounded before. fixed_range(mmin,mmax,nmin,nmax) with a range inside the resolution names exactly the dofs with m and n in the range (and only existing names).", "quantifier": "every pair of resolutions, every surface state, every range", "why_tests_cant": "all resolutions", "anchors": ["src/simsopt/geo/surfacerzfourier.py:SurfaceRZFourier.change_resolution", "src/simsopt/geo/surfacerzfourier.py:SurfaceRZFourier.fixed_range"]}
{"id": "C47", "title": "Values held by the C++ side follow the dofs of the object", "statement": "For an object with an external dof setter (curves, surfaces, coils in C++), after every operation on any object except replace_dofs the externally held values equal the object's local_full_x. replace_dofs never calls the setter: afterwards the external values are the old ones, and they are right again after the next assignment of values through any object using the same DOFs.", "quantifier": "all histories of API calls on all graphs, all sharing patterns, all set iteration orders", "why_tests_cant": "ranges over all operation histories and sharing patterns", "anchors": ["src/simsopt/_core/optimizable.py:DOFs._flag_recompute_opt", "src/simsopt/_core/optimizable.py:Optimizable.replace_dofs"]}
{"id": "C48", "title": "Point used by FiniteDifference.jac() without argument", "statement": "FiniteDifference.jac() without argument returns the Jacobian at the last point that was ever passed explicitly to jac, if any; else at the x0 given to the constructor, if any; and at the current opt.x only when neither exists.", "quantifier": "every history of jac calls and x assignments", "why_tests_cant": "a test samples one call sequence; the property is about every history of calls", "anchors": ["src/simsopt/_core/finite_difference.py: FiniteDifference.jac"]}
{"id": "C49", "title": "State of opt.x after FiniteDifference.jac", "statement": "After FiniteDifference.jac opt.x is what it was before the call when no evaluation raises; otherwise it is the point at which the objective raised first (unless that was the evaluation which determines the shape, which happens at opt.x itself).", "quantifier": "every objective and failure point", "why_tests_cant": "failure can occur at any evaluation of any objective", "anchors": ["src/simsopt/_core/finite_difference.py: FiniteDifference.jac"]}
{"id": "C50", "title": "Staleness of MPIFiniteDifference.jac", "statement": "MPIFiniteDifference.jac(x) returns the Jacobian at x whatever was computed before. jac() without argument: the first call of all is evaluated at the point opt.x had when the object was built, and moves opt.x there; after a call with an explicit point it is the Jacobian at the current opt.x; after that every further jac() returns the same matrix, whatever opt.x and the objective are now, until the next call with an explicit point.", "quantifier": "every history of calls and x assignments, every number of groups", "why_tests_cant": "the property ranges over call histories", "anchors": ["src/simsopt/_core/finite_difference.py: MPIFiniteDifference.jac, _jac"]}
{"id": "C51", "title": "Bound methods of one object stay methods of one object after saving and loading", "statement": "Two bound methods of the same object, or an object and one of its bound methods, should decode to methods of one object. (Refuted for every object: each bound method is written out in place and decodes to a freshly constructed object, so e.g. a least squares problem on two methods of one object gets two independent copies after loading.)", "quantifier": "every object and every pair of bound methods", "why_tests_cant": "holds for every graph; tests check a single method per object", "anchors": ["src/simsopt/_core/json.py:_serialize_callable", "src/simsopt/_core/json.py:GSONDecoder.process_decoded"]}
{"id": "C52", "title": "Redirected classes load from their new module", "statement": "A class redirected in ~/.simsopt.yaml from old module/class to new module/class loads as the new class. (Holds for redirects within one module and for classes without redirect; refuted for every class that moved to another module: KeyError, or a mixture of two redirects.)", "quantifier": "every redirect table and class", "why_tests_cant": "all tables", "anchors": ["src/simsopt/_core/json.py:_load_redirect", "src/simsopt/_core/json.py:GSONDecoder.process_decoded"]}
{"id": "C53", "title": "User dictionaries survive saving and loading", "statement": "A plain dictionary argument is loaded as the same dictionary whatever its keys. (Refuted for reserved keys: a dict with \"$type\": \"ref\" raises KeyError, one with \"@class\" becomes an object.)", "quantifier": "every dictionary", "why_tests_cant": "all keys", "anchors": ["src/simsopt/_core/json.py:GSONDecoder.process_decoded"]}
{"id": "C54", "title": "Adding three least squares problems of which two share an object", "statement": "If p and q contain functions of a common object, (p+q)+r lists these functions twice while goals and weights are listed once: every evaluation of the sum raises (IndexError when all functions succeed), in every history.", "quantifier": "every p, q, r with a shared object between p and q, every history of assignments and evaluations", "why_tests_cant": "all problems and histories", "anchors": ["src/simsopt/objectives/least_squares.py:LeastSquaresProblem.__add__", "src/simsopt/_core/optimizable.py:Optimizable.get_parent_return_fns_list"]}
{"id": "C55", "title": "The field of a symmetric coil set has the symmetry", "statement": "For coils built by coils_via_symmetries(curves, currents, nfp, stellsym): rotating the evaluation point by any multiple of 2*pi/nfp rotates B and A with it; with stellsym, B and A at (x,-y,-z) are minus the reflected vectors at (x,y,z).", "quantifier": "every list of base curves and currents (including rotated curves and scaled/summed currents), nfp >= 1, every point, every number of periods", "why_tests_cant": "all coil sets, all points", "anchors": ["src/simsopt/field/coil.py:coils_via_symmetries", "src/simsoptpp/biot_savart_impl.h"]}
{"id": "C56", "title": "dB_by_dX, d2B_by_dXdX, dA_by_dX, d2A_by_dXdX are the derivatives", "statement": "At every point that is not a quadrature point, row k of dB_by_dX is the partial derivative of B in direction k, entry (k1,k2) of d2B_by_dXdX is the partial derivative of row k1 of dB_by_dX in direction k2; likewise for A.", "quantifier": "every number of coils and quadrature points, currents, points", "why_tests_cant": "real-valued inputs, unbounded sizes", "anchors": ["src/simsoptpp/biot_savart_impl.h", "src/simsoptpp/magneticfield_biotsavart.cpp"]}
{"id": "C57", "title": "The Biot-Savart vjp kernels are the transposed Jacobian", "statement": "For coils moving along any differentiable path, d/dt of sum_i v_i.B(x_i) equals the pairing of the arrays passed to Coil.vjp (res_gamma, res_gammadash, res_current) with the velocities of gamma, gammadash and current; likewise for vgrad with dB_by_dX, and for A and dA_by_dX.", "quantifier": "every coil path, weights v, evaluation points off the quadrature points", "why_tests_cant": "all real inputs and sizes", "anchors": ["src/simsoptpp/biot_savart_vjp_impl.h", "src/simsoptpp/biot_savart_vjp_py.cpp", "src/simsopt/field/biotsavart.py:BiotSavart.B_vjp", "src/simsopt/field/biotsavart.py:BiotSavart.B_and_dB_vjp"]}
{"id": "C58", "title": "Maxwell identities hold exactly for the discretised coils", "statement": "div B = 0 (the trace of dB_by_dX vanishes) off the quadrature points, B is the curl of A (built from dA_by_dX), and the second-derivative arrays are symmetric in the two derivative directions.", "quantifier": "every coil set and point", "why_tests_cant": "all real inputs", "anchors": ["src/simsoptpp/biot_savart_impl.h"]}
{"id": "C59", "title": "RotatedCurve", "statement": "gamma and gammadash of RotatedCurve(curve, phi, flip) are the base data rotated by phi about z and then, if flip, reflected (x,-y,-z); .flip tells the flag; lengths, dot products and cross products are preserved; the vjps pull back through any nesting of rotations by the transposed matrix, so pairings are preserved.", "quantifier": "every base curve, angle, flag, nesting depth, vector array", "why_tests_cant": "all reals, unbounded nesting", "anchors": ["src/simsopt/geo/curve.py:RotatedCurve"]}
{"id": "C60", "title": "B_vjp with symmetric coils is the derivative with respect to the base curves and currents", "statement": "For any list of coils built from base curves by RotatedCurve and from base currents by current arithmetic, the sum over coils of Coil.vjp(...) as computed by B_vjp / A_vjp / B_and_dB_vjp / A_and_dA_vjp, paired with any velocities of the base curves' gamma, gammadash and base currents, is the time derivative of sum v.B (v.A, vgrad.dB, vgrad.dA).", "quantifier": "every coil list, base motion, weights, points off the coils", "why_tests_cant": "all reals and sizes", "anchors": ["src/simsopt/field/coil.py:Coil.vjp", "src/simsopt/field/biotsavart.py:BiotSavart.B_vjp", "src/simsopt/geo/curve.py:RotatedCurve.dgamma_by_dcoeff_vjp"]}
{"id": "C61", "title": "Cartesian and cylindrical evaluation points", "statement": "set_points_cart then get_points_cyl gives radius >= 0, angle in [0, 2 pi) and the same point; set_points_cyl then get_points_cart gives the point with those coordinates for every angle; off the axis the conversion cyl -> cart -> cyl is the identity for angles in [0, 2 pi); get_points_cyl after set_points_cyl returns the given angle exactly when it is in (-2 pi, 2 pi), so negative angles are not normalised.", "quantifier": "all points", "why_tests_cant": "quadrants, the axis and angle wrap-around are a continuum of cases", "anchors": ["src/simsoptpp/magneticfield.h:get_points_cyl_impl", "src/simsoptpp/magneticfield.h:set_points_cyl"]}
{"id": "C62", "title": "GradAbsB and the cylindrical components are what their names say", "statement": "GradAbsB is the gradient of AbsB wherever B is nonzero and the point is not a quadrature point; B_cyl, A_cyl and GradAbsB_cyl are the components along the unit vectors e_r, e_phi, e_z at the angle of the point.", "quantifier": "all coil sets, all points", "why_tests_cant": "a derivative identity over all inputs", "anchors": ["src/simsoptpp/magneticfield.h:_GradAbsB_impl", "src/simsoptpp/magneticfield.h:_B_cyl_impl"]}
{"id": "C63", "title": "The grid interpolant is the piecewise polynomial through the nodes", "statement": "After RegularGridInterpolant3D.interpolate_batch(f), evaluate_batch at a point of the box returns the value, at that point (moved by 1e-13 if it lies on the boundary of the box), of the polynomial of the rule's degree in each coordinate that agrees with f at the nodes of the cell containing the point. So polynomials of that degree are reproduced exactly, every function is reproduced at the nodes inside the box, and this holds whatever other cells are skipped: a cell is skipped exactly when the skip function says so at all its eight corners, and a point in a skipped cell raises an error (or is left unchanged with out_of_bounds_ok). Splitting the evaluation of f into batches does not change anything.", "quantifier": "every rule (uniform, Chebyshev) of positive degree, every box and number of cells, every function, skip function and point of the box", "why_tests_cant": "all functions, grids and points; the reduced numbering of the kept degrees of freedom has to be consistent for every skip pattern", "anchors": ["src/simsoptpp/regular_grid_interpolant_3d.h: InterpolationRule, RegularGridInterpolant3D", "src/simsoptpp/regular_grid_interpolant_3d_impl.h: interpolate_batch, evaluate_batch, evaluate_inplace, evaluate_local"]}
{"id": "C64", "title": "What the grid interpolant does outside its box", "statement": "With out_of_bounds_ok=False an evaluation raises exactly when the (1e-13 shifted) point is in a skipped cell, or at or beyond the upper end of some axis, or at least one full cell below the lower end: points less than one cell below the box are silently extrapolated. With out_of_bounds_ok=True a point outside along the first axis is left unchanged, but a point less than one cell beyond the upper end of the last axis is evaluated in the next row of cells, as if it had been moved by one cell along the second axis and to the other end of the last axis, when such a row exists.", "quantifier": "every grid, function, skip function and point", "why_tests_cant": "all points outside the box; the flattened cell index aliases only for particular combinations", "anchors": ["src/simsoptpp/regular_grid_interpolant_3d_impl.h: evaluate_inplace, evaluate_local"]}
{"id": "C65", "title": "SurfaceRZFourier: positions are the documented Fourier series and the derivatives are its derivatives", "statement": "For every surface and every pair of quadrature points, gamma and gamma_lin equal the Fourier series R(theta,phi), Z(theta,phi) of the documentation (the rotation recurrence for sines and cosines introduces no error and never reads an uninitialised variable); gammadash1, gammadash2, gammadash1dash1, gammadash1dash2, gammadash2dash2 are the derivatives with respect to the quadrature points; shifting phi by a field period rotates the point about the z axis, shifting theta by 1 does nothing, and with stellarator symmetry (phi,theta) -> (-phi,-theta) maps (x,y,z) to (x,-y,-z). The blocked SIMD loop computes every point of the row once for every register width.", "quantifier": "every mpol, ntor, nfp, stellsym, coefficients, quadrature points, register width", "why_tests_cant": "all resolutions, coefficient values and points", "anchors": ["src/simsoptpp/surfacerzfourier.cpp:gamma_impl", "src/simsoptpp/surfacerzfourier.cpp:gamma_lin", "src/simsoptpp/surfacerzfourier.cpp:gammadash1_impl", "src/simsoptpp/surfacerzfourier.cpp:gammadash2_impl", "src/simsoptpp/surfacerzfourier.cpp:gammadash1dash1_impl", "src/simsoptpp/surfacerzfourier.cpp:gammadash1dash2_impl", "src/simsoptpp/surfacerzfourier.cpp:gammadash2dash2_impl"]}
{"id": "C66", "title": "SurfaceRZFourier: dof derivatives and vector-Jacobian products", "statement": "For any two dof vectors x, y the change of gamma (and of each of its five derivatives) between set_dofs(y) and set_dofs(x) is exactly d..._by_dcoeff times x - y, with one column per dof in dof order. dgamma_by_dcoeff_vjp, dgammadash1_by_dcoeff_vjp and dgammadash2_by_dcoeff_vjp return the transpose of that matrix applied to v, never write outside the result, and give the same result for every SIMD width and for the non-SIMD code with its missing braces. Coefficients (0,n<0) that are not dofs still move the surface.", "quantifier": "every surface, dof vectors, quadrature grid, v, register width", "why_tests_cant": "all resolutions, values, grids", "anchors": ["src/simsoptpp/surfacerzfourier.cpp:dgamma_by_dcoeff_vjp", "src/simsoptpp/surfacerzfourier.cpp:dgamma_by_dcoeff_impl", "src/simsoptpp/surfacerzfourier.cpp:dgammadash1_by_dcoeff_vjp", "src/simsoptpp/surfacerzfourier.cpp:dgammadash2_by_dcoeff_vjp"]}
{"id": "C67", "title": "Area, volume, normals and curvatures come with their exact dof derivatives", "statement": "For a surface whose points are affine in the dofs, at every dof vector and in every direction: dnormal_by_dcoeff, d2normal_by_dcoeffdcoeff, dfirst_fund_form_by_dcoeff are the derivatives of normal, dnormal_by_dcoeff and first_fund_form; where the parametrisation is regular dunitnormal_by_dcoeff, dsecond_fund_form_by_dcoeff, the derivatives of mean and Gauss curvature (and, off umbilic points, of the principal curvatures), darea_by_dcoeff and d2area_by_dcoeffdcoeff are derivatives too; dvolume_by_dcoeff and d2volume_by_dcoeffdcoeff always are. dnormal_by_dcoeff_vjp is the transposed Jacobian. unitnormal is a unit vector orthogonal to both tangents and positively oriented; the principal curvatures are the roots of det(second - k first), never complex. The vectorised d2volume equals the plain one for every register width. SurfaceRZFourier is such a surface.", "quantifier": "all surfaces affine in the dofs (in particular every SurfaceRZFourier resolution, nfp and quadrature grid), all dof vectors, all directions, all register widths", "why_tests_cant": "Taylor tests sample a few surfaces, dofs and directions", "anchors": ["src/simsoptpp/surface.cpp:184-810", "src/simsoptpp/surface.h:103-235"]}
{"id": "C68", "title": "CurveXYZFourier evaluates the documented Fourier series, with exact derivatives", "statement": "gamma at quadrature point t is the sum over the dof names xc(j), xs(j), ... of dof value times cos/sin(2 pi j t) in that coordinate; there is exactly one name per dof in dof order; gammadash, gammadashdash, gammadashdashdash are its first, second and third t-derivatives; the curve is closed (period 1); d...by_dcoeff are the dof derivatives, and the vjps the transposed Jacobians; the jax version of gamma agrees; set_dofs then get_dofs returns the vector, and set_dofs reads past the end of the vector exactly when it is shorter than num_dofs.", "quantifier": "every order, dof vector, quadrature point, direction and v", "why_tests_cant": "Taylor tests sample a few curves and directions", "anchors": ["src/simsoptpp/curvexyzfourier.cpp", "src/simsoptpp/curvexyzfourier.h", "src/simsopt/geo/curvexyzfourier.py", "src/simsoptpp/curve.h"]}
{"id": "C69", "title": "CurveRZFourier evaluates the documented series in R and z, with exact derivatives", "statement": "gamma is (R cos phi, R sin phi, z) with R and z the series over the dofs (cosines in R and sines in z only, under stellarator symmetry); t-derivatives up to third order and dof derivatives are exact; set_dofs then get_dofs returns the vector; advancing t by 1/nfp turns the curve by 2 pi/nfp about the z axis.", "quantifier": "every order, nfp, stellsym, dof vector, quadrature point and direction", "why_tests_cant": "Taylor tests sample a few curves and directions", "anchors": ["src/simsoptpp/curverzfourier.cpp", "src/simsoptpp/curverzfourier.h", "src/simsopt/geo/curverzfourier.py"]}
{"id": "C70", "title": "CurvePlanarFourier is a rotated planar polar curve; its dof derivatives are right exactly away from the zero quaternion", "statement": "gamma is center + rotation(q/|q|) of the polar curve r(phi) (cos phi, sin phi, 0); a quaternion built from an axis and an angle gives the rotation about that axis by that angle; the curve lies in a plane through the center at distance |r| from it; scaling the quaternion by any nonzero factor changes nothing; the zero quaternion means no rotation; set/get dofs are inverse; t-derivatives up to third order are exact; the dof derivatives are exact whenever the quaternion is not zero, and at the zero quaternion (a freshly constructed curve) gamma has no dof derivative wherever r is not zero.", "quantifier": "every order, dof vector, quadrature point and direction", "why_tests_cant": "Taylor tests sample a few curves; the zero quaternion is the constructor default", "anchors": ["src/simsoptpp/curveplanarfourier.cpp", "src/simsoptpp/curveplanarfourier.h", "src/simsopt/geo/curveplanarfourier.py"]}
{"id": "C71", "title": "Arclength, curvature, torsion and Frenet frame of curves, with exact derivatives", "statement": "For every curve whose gammadash, gammadashdash, gammadashdashdash come with exact dof derivatives (linear in the dofs or not), at every point with gamma' x gamma'' nonzero: dincremental_arclength_by_dcoeff, dkappa_by_dcoeff, dtorsion_by_dcoeff, dkappadash_by_dcoeff and dfrenet_frame_by_dcoeff are the dof derivatives of incremental_arclength, kappa, torsion, kappadash and frenet_frame; the vjps of the base class are the transposed Jacobians, whatever vector jax returns for the gradient of the pure function; kappadash is the derivative of kappa along the curve; t, n, b is a right-handed orthonormal frame and satisfies the Frenet-Serret equations with kappa and torsion. A RotatedCurve has the same arclength, kappa, torsion, kappadash, and the rotated frame, also when flipped.", "quantifier": "all curves, dofs, directions, points with nonzero curvature, cotangents, rotation angles", "why_tests_cant": "Taylor tests sample a few curves and directions", "anchors": ["src/simsopt/geo/curve.py:29-408", "src/simsoptpp/curve.cpp:41-58"]}
{"id": "C72", "title": "Cached curve and surface arrays: exactly when they are current", "statement": "The arrays returned by curves and surfaces are cached. For a curve whose d..._by_dcoeff arrays do not depend on its coefficients (CurveXYZFourier, CurveRZFourier) every answer in every history of set_dofs and queries equals the value computed afresh from the current coefficients, and the position arrays and the arclength of every curve are fresh. Exactly these failures exist: an array in the persistent cache keeps its first value for ever, so CurvePlanarFourier's dgamma*_by_dcoeff (which do depend on the coefficients) are those of the first use, and this differs from the true one; an array asked for once never changes shape; a nan or inf once in an array that is recomputed by 'data *= 0; data += ...' stays; writing into a returned array changes what the next caller gets.", "quantifier": "all histories of set_dofs, queries and writes, all orders, quadrature points, coefficients and all acyclic tables of quantities", "why_tests_cant": "staleness depends on the history of calls; unit tests query each derivative once per object", "anchors": ["src/simsoptpp/curve.h: check_the_cache, check_the_persistent_cache, invalidate_cache, set_dofs", "src/simsoptpp/surface.h: the same", "src/simsoptpp/cachedarray.h", "src/simsoptpp/curveplanarfourier.h:96-107", "src/simsoptpp/curve.cpp: incremental_arclength_impl, dincremental_arclength_by_dcoeff_impl"]}
{"id": "C73", "title": "Close point clouds are found exactly", "statement": "For every nonzero threshold, get_pointclouds_closer_than_threshold_within_collection returns, without repetition, exactly the pairs (i, j) with j < i and j < num_base such that some point of cloud i and some point of cloud j are closer than |threshold|; get_pointclouds_closer_than_threshold_between_two_collections returns exactly the pairs of clouds, one of each collection, with two points closer than |threshold|. The grid of cells used to discard pairs early never discards a close pair. A zero threshold divides by zero.", "quantifier": "all collections of finite point clouds, thresholds and numbers of base clouds", "why_tests_cant": "a missed neighbouring cell shows only for points straddling particular cell boundaries, with negative coordinates, in particular corners", "anchors": ["src/simsoptpp/python_distance.cpp", "src/simsopt/geo/curveobjectives.py:CurveCurveDistance.compute_candidates"]}
{"id": "C74", "title": "CurveCurveDistance: value, gradient and shortest distance", "statement": "J equals the documented double sum over all pairs i > j with j among the first num_basecurves curves, whatever the order in which the candidates are found; it is never negative and is zero exactly when no two quadrature points of such a pair are closer than minimum_distance. dJ hands every curve exactly the derivative of J with respect to its gamma and gammadash, also at the boundary of the threshold and although the candidates change. shortest_distance is the least distance over pairs with a base curve if some such pair is closer than the minimum distance, over ALL pairs otherwise, and fails with fewer than two curves. For curves produced by field-period and stellarator symmetry with the base curves first, restricting to num_basecurves changes neither whether J is zero nor the shortest distance.", "quantifier": "all lists of curves, thresholds, numbers of base curves, candidate orders and differentiable motions (no coincident points, nonzero tangents)", "why_tests_cant": "statement about every configuration of curves, including those exactly at the threshold", "anchors": ["src/simsopt/geo/curveobjectives.py:CurveCurveDistance", "src/simsopt/geo/curveobjectives.py:cc_distance_pure"]}
{"id": "C75", "title": "CurveSurfaceDistance and its list of close curves", "statement": "In every history of moving the curves, moving the surface and asking for J, each answer sums the penalty over exactly the curves that were close to the surface in place at the first question since the curves last moved, measured against the present surface. If the surface has not moved since that question the answer is the documented sum over all curves, is never negative, is zero exactly when every point is far enough from the surface, dJ is its derivative with respect to the curves and shortest_distance the least distance. If only the surface has moved, J may answer 0 although a curve touches the surface.", "quantifier": "all histories, thresholds, curves and surfaces", "why_tests_cant": "the answer depends on the whole history of changes through a cache that one kind of change does not invalidate", "anchors": ["src/simsopt/geo/curveobjectives.py:CurveSurfaceDistance"]}
{"id": "C76", "title": "Length, curvature, torsion and mean squared curvature objectives", "statement": "CurveLength, LpCurveCurvature, LpCurveTorsion and MeanSquaredCurvature return the documented integrals evaluated with the curve's quadrature points. The L^p penalties are never negative and are zero exactly when curvature (absolute torsion) is at most the threshold at every quadrature point; the mean squared curvature is never negative and zero exactly for vanishing curvature. dJ of each is the gradient of J with respect to the dofs, for p >= 2 everywhere the curvature does not vanish, and for p = 1 away from the threshold.", "quantifier": "all curves given by differentiable functions of their dofs, numbers of quadrature points, thresholds and natural exponents", "why_tests_cant": "Taylor tests check a few curves at generic points only; the kink of max and abs and every number of quadrature points have to be covered", "anchors": ["src/simsopt/geo/curveobjectives.py:CurveLength", "src/simsopt/geo/curveobjectives.py:LpCurveCurvature", "src/simsopt/geo/curveobjectives.py:LpCurveTorsion", "src/simsopt/geo/curveobjectives.py:MeanSquaredCurvature"]}
{"id": "C77", "title": "ArclengthVariation", "statement": "The constructor raises AssertionError for any string other than 'full' and 'partial' and for integers outside 1..number of quadrature points, and RuntimeError for 'partial' with a curve that is not a CurveXYZFourier. For at most as many intervals as quadrature points, the intervals are consecutive nonempty blocks covering all points and J is the variance of the mean arclength over the blocks: never negative, zero for constant arclength, and zero exactly when all block means agree (with 'full': exactly when the arclength is constant). dJ is the gradient of J. With more intervals than points ('partial' on a coarse grid) J is positive for every curve of constant nonzero speed.", "quantifier": "all argument values, numbers of quadrature points and intervals, partitions and curves", "why_tests_cant": "infinitely many combinations of intervals and points; the tests use orders for which the intervals fit", "anchors": ["src/simsopt/geo/curveobjectives.py:ArclengthVariation"]}
{"id": "C78", "title": "LinkingNumber", "statement": "Construction raises AssertionError exactly if the downsampling factor does not divide the number of quadrature points of some curve. Otherwise J is the sum over unordered pairs of curves of the integer nearest to the absolute value of the discretised Gauss integral over every downsample-th point; it does not depend on the order of the curves, on their orientation, on moving, rotating, reflecting or scaling all of them together; curves in one plane give 0; and downsampling equals giving the curves with fewer points. dJ = 0 is the derivative: along any differentiable motion J is constant as long as no two sampled points coincide and no pair's integral is exactly half-way between integers.", "quantifier": "all lists of curves, downsampling factors, rigid motions and differentiable motions", "why_tests_cant": "invariance under all motions, orders and orientations cannot be sampled", "anchors": ["src/simsopt/geo/curveobjectives.py:LinkingNumber", "src/simsoptpp/python_distance.cpp:compute_linking_number"]}
{"id": "C79", "title": "SquaredFlux: value, zero set, invariances and gradient", "statement": "For each of the three definitions, J is the documented quadrature of one half of the squared normal field error over the surface. It is never negative and zero exactly when B.n equals the target at every quadrature point (for the normalised ones where the field does not vanish). Multiplying field and target by a common factor c multiplies the quadratic flux by c^2 and leaves the other two unchanged; reversing the normals together with the sign of the target changes nothing. dJ is the gradient of J with respect to the dofs of the field.", "quantifier": "all numbers of quadrature points, nonvanishing normals, targets, and fields that are differentiable functions of their dofs", "why_tests_cant": "Taylor tests sample some coil sets; the three definitions and their gradients must agree for every field and surface", "anchors": ["src/simsopt/objectives/fluxobjective.py:SquaredFlux", "src/simsoptpp/integral_BdotN.cpp:integral_BdotN"]}
{"id": "C80", "title": "SquaredFlux evaluates the field wherever its points were set last", "statement": "J() of a SquaredFlux object is the flux of the current field through its current surface whenever the last setting of the field's points was the construction of an objective on that surface and the surface has not moved since (the field's dofs may change freely). Otherwise it is not: constructing another SquaredFlux with the same field makes all earlier ones combine the field at the other surface's points with their own normals (or fail when the number of points differs), a rejected construction does the same, and moving the surface leaves the field at the old points.", "quantifier": "all histories of constructing objectives, moving surfaces, changing fields and setting points", "why_tests_cant": "an aliasing effect over histories of calls on shared objects; tests use one objective per field", "anchors": ["src/simsopt/objectives/fluxobjective.py:SquaredFlux"]}
{"id": "C81", "title": "MPIObjective: mean over the objectives of all ranks", "statement": "MPIObjective.J is the mean of the values of all objectives of all ranks (undefined exactly when no rank has one), so that splitting a list over any number of ranks gives the mean over the list. If the derivatives on the ranks have the same keys in the same order, dJ returns on every rank the mean derivative, which is the gradient of J. Splitting leaves some rank without an objective exactly when there are fewer objectives than ranks; then dJ raises there and the other ranks wait for ever. Derivatives whose keys are in a different order on different ranks are mixed up.", "quantifier": "all numbers of ranks, distributions of objectives and derivatives", "why_tests_cant": "CI runs a handful of rank counts and objective lists", "anchors": ["src/simsopt/objectives/utilities.py:MPIObjective", "src/simsopt/objectives/utilities.py:sum_across_comm"]}
{"id": "C82", "title": "MPIOptimizable: attributes of the owner after a change of dofs", "statement": "Accessing an MPIOptimizable after a change of dofs makes every rank see, for every optimizable in the list, the attribute values of the one rank that owns it, and never changes what the owner holds. Accesses with no change of dofs in between do not communicate: attributes set locally in the meantime stay local.", "quantifier": "all numbers of ranks and optimizables, and all histories of attribute changes, dof changes and accesses", "why_tests_cant": "histories and rank counts are unbounded", "anchors": ["src/simsopt/objectives/utilities.py:MPIOptimizable", "src/simsopt/_core/util.py:parallel_loop_bounds"]}
{"id": "C83", "title": "Permanent magnets: bound on the dipole moments", "statement": "The projection used by the convex permanent-magnet solver maps every moment to the nearest one within the bound m_maxima, and the largest admissible step is exactly the largest step that stays within the bound, for directions whose squared length exceeds 1e-20. Shorter directions are given an unbounded step: from a feasible point the solver can return a moment above its maximum (by at most 1e-10 times the step).", "quantifier": "all moments, directions, bounds and all problems", "why_tests_cant": "the tests look at a few grids; the overshoot needs one particular direction", "anchors": ["src/simsoptpp/permanent_magnet_optimization.cpp:projection_L2_balls", "src/simsoptpp/permanent_magnet_optimization.cpp:find_max_alphaf", "src/simsoptpp/permanent_magnet_optimization.cpp:MwPGP_algorithm"]}
{"id": "C84", "title": "MwPGP descends and stops at minimisers", "statement": "Starting from feasible moments with the step size at most two over the largest eigenvalue, the convex solver returns feasible moments whose objective is not larger than that of the initial guess; the recorded objective history is decreasing; and moments that an iteration leaves unchanged minimise the objective over all feasible moments (apart from points exactly on the switching radius of the active-set test, and directions of squared length below 1e-20, see C83). With verbose set and between 1 and 4 iterations the call dies from a remainder by zero, and returns otherwise.", "quantifier": "all matrices, targets, proxies, bounds, regularisations, initial guesses, numbers of iterations", "why_tests_cant": "convergence tests run some problems; descent and optimality are for all", "anchors": ["src/simsoptpp/permanent_magnet_optimization.cpp:MwPGP_algorithm", "src/simsoptpp/permanent_magnet_optimization.cpp:phi_MwPGP", "src/simsoptpp/permanent_magnet_optimization.cpp:beta_tilde", "src/simsoptpp/permanent_magnet_optimization.cpp:g_reduced_projected_gradient"]}
{"id": "C85", "title": "Relax-and-split: proximal maps, descent and the quiet mode", "statement": "prox_l1 and prox_l0 return minimisers of the (weighted 1-norm, number of nonzeros) penalty plus the squared distance over 2 nu; the proxy is always feasible; a run that returns never increases the joint objective of moments and proxy, returns feasible moments and proxy, and the best proxy for its moments. With verbose=False a run with a nonconvex term always raises IndexError.", "quantifier": "all problems, penalties, numbers of rounds and iterations", "why_tests_cant": "the statement is over all runs; tests only use verbose runs", "anchors": ["src/simsopt/solve/permanent_magnet_optimization.py:prox_l0", "src/simsopt/solve/permanent_magnet_optimization.py:prox_l1", "src/simsopt/solve/permanent_magnet_optimization.py:relax_and_split"]}
{"id": "C86", "title": "Greedy permanent magnets: each placement is the best one", "statement": "GPMO with the baseline algorithm places, in each of K iterations (K at most the number of sites), one full-strength magnet on an empty site; its site, component and sign minimise the squared misfit plus the regularisation term over all empty sites (and over the allowed component only, when single_direction is given). It returns exactly K magnets, each of maximal moment along one axis. When more iterations than sites are run, as happens on grids below 1000 sites when K is not given, every further iteration overwrites the x component of the first site with +1, which can produce a moment above the maximum.", "quantifier": "all matrices, targets, regularisations, numbers of sites and iterations", "why_tests_cant": "optimality of every choice over all candidates and all problems; tests compare final objectives", "anchors": ["src/simsoptpp/permanent_magnet_optimization.cpp:GPMO_baseline", "src/simsopt/solve/permanent_magnet_optimization.py:GPMO"]}
{"id": "C87", "title": "Greedy permanent magnets with backtracking", "statement": "With backtracking, each iteration places a best magnet and every backtracking-th iteration removes pairs of equal and opposite magnets at adjacent sites until none is left (apart from those only listed as neighbours of the site just filled). At all times each site holds at most one magnet, of full strength along one axis; the number of magnets has the parity of the number of iterations; the run ends exactly when K iterations are done, all sites are full or max_nMagnets is reached, and the test for a stuck run never fires.", "quantifier": "all problems, neighbour lists, numbers of iterations, backtracking intervals", "why_tests_cant": "a history property of all runs", "anchors": ["src/simsoptpp/permanent_magnet_optimization.cpp:GPMO_backtracking", "src/simsopt/solve/permanent_magnet_optimization.py:GPMO"]}
{"id": "C88", "title": "Greedy permanent magnets: history buffers and neighbour lists", "statement": "A baseline run with verbose set returns exactly when the history interval int(K / nhistory) is positive and the number of recorded iterations fits in nhistory + 1 entries; with nhistory dividing K it always fits; with K = 2 nhistory - 1 the arrays are always written out of bounds. Backtracking runs that stop early write one entry more and may overflow even when nhistory divides K. Every row of the neighbour table lists all sites once by increasing distance, then repeats site 0.", "quantifier": "all K, nhistory and problems; all site layouts of at most 2000 sites", "why_tests_cant": "tests use only history sizes that divide K", "anchors": ["src/simsoptpp/permanent_magnet_optimization.cpp:GPMO_baseline", "src/simsoptpp/permanent_magnet_optimization.cpp:GPMO_backtracking", "src/simsoptpp/permanent_magnet_optimization.cpp:connectivity_matrix"]}
{"id": "C89", "title": "Wireframe: the continuity constraints are Kirchhoff's law on the whole torus", "statement": "For a wireframe on a stellarator-symmetric surface, segment currents that satisfy the constraints present after construction conserve current at every point of the full torus (all field periods and their mirror images, nodes on the symmetry planes being shared by two half periods): the currents leaving any point sum to zero. Conversely conservation at every node implies all these constraints, so the nodes on the symmetry planes left without a constraint need none.", "quantifier": "all grid sizes (even n_theta, n_phi at least 2), field periods, surfaces and currents", "why_tests_cant": "all sizes and currents; tests check one wireframe", "anchors": ["src/simsopt/geo/wireframe_toroidal.py:ToroidalWireframe.__init__", "src/simsopt/geo/wireframe_toroidal.py:determine_connected_segments", "src/simsopt/geo/wireframe_toroidal.py:add_continuity_constraints"]}
{"id": "C90", "title": "Wireframe cells span the admissible changes", "statement": "Segment currents obey continuity and have zero net toroidal and poloidal current exactly when they are a combination of loops around the cells of get_cell_key. Adding a loop of current around one cell never changes whether a constraint holds, provided the constraint does not name a segment of that cell. Two different cells are listed as neighbours by get_cell_neighbors exactly when they share a segment.", "quantifier": "all grid sizes, currents, cells and constraints", "why_tests_cant": "a spanning property for all sizes", "anchors": ["src/simsopt/geo/wireframe_toroidal.py:set_up_cell_key", "src/simsopt/geo/wireframe_toroidal.py:get_cell_key", "src/simsopt/geo/wireframe_toroidal.py:get_cell_neighbors"]}
{"id": "C91", "title": "Wireframe: net currents and TF coils", "statement": "With continuity, the toroidal current through every poloidal cut and the poloidal current through every toroidal line of the full torus are the ones constrained by set_toroidal_current and set_poloidal_current, which replace any earlier value and leave the other constraints alone. add_tfcoil_currents(n, c) adds currents that obey continuity; their total poloidal current is 2 nfp n c when 2 n <= n_phi, but c nfp less when 2 n > n_phi, so with the matching poloidal-current constraint the call then fails.", "quantifier": "all grid sizes, field periods, currents and numbers of coils", "why_tests_cant": "all sizes; tests use few coils", "anchors": ["src/simsopt/geo/wireframe_toroidal.py:add_poloidal_current_constraint", "src/simsopt/geo/wireframe_toroidal.py:set_poloidal_current", "src/simsopt/geo/wireframe_toroidal.py:set_toroidal_current", "src/simsopt/geo/wireframe_toroidal.py:add_tfcoil_currents", "src/simsopt/geo/wireframe_toroidal.py:check_constraints"]}
{"id": "C92", "title": "Wireframe segment constraints: bookkeeping over every history", "statement": "After any sequence of constraint calls, names are unique, every stored row is the one its name promises, and constrained_segments reports exactly the least set that contains the user's segments and, with three of the four segments meeting at a node, the fourth; every current distribution that conserves current and vanishes on the user's segments vanishes on all of them. set_segments_constrained works on any distinct segments and fails on repeated ones; add_segment_constraints raises AttributeError on a segment with an implied constraint; set_segments_free has no lasting effect on a segment still forced by others; set_toroidal_breaks never trips its assertions, constrains evenly placed whole rows and thereby enforces zero toroidal current, but with zero breaks or zero width it deletes a zero-toroidal-current constraint without replacement.", "quantifier": "all histories of calls, grid sizes and segment lists", "why_tests_cant": "histories of arbitrary length", "anchors": ["src/simsopt/geo/wireframe_toroidal.py:add_constraint", "src/simsopt/geo/wireframe_toroidal.py:remove_constraint", "src/simsopt/geo/wireframe_toroidal.py:add_segment_constraints", "src/simsopt/geo/wireframe_toroidal.py:set_segments_constrained", "src/simsopt/geo/wireframe_toroidal.py:set_segments_free", "src/simsopt/geo/wireframe_toroidal.py:update_implicit_constraints", "src/simsopt/geo/wireframe_toroidal.py:constrained_segments", "src/simsopt/geo/wireframe_toroidal.py:set_toroidal_breaks"]}
{"id": "C93", "title": "Wireframe constraint matrices describe the feasible currents", "statement": "After any history of constraint calls that removes no continuity constraint, constraint_matrices without assume_no_crossings returns, for each choice of remove_redundancies and remove_constrained_segments, a system C x = d whose solutions (extended by zero on removed columns) are exactly the currents that satisfy all constraints stated so far; its internal assertion never fails. The only failure is a ValueError when both reductions remove every row. With assume_no_crossings the system can have solutions that break current conservation.", "quantifier": "all histories, grid sizes, option combinations and currents", "why_tests_cant": "equality of solution sets for all histories", "anchors": ["src/simsopt/geo/wireframe_toroidal.py:constraint_matrices", "src/simsopt/geo/wireframe_toroidal.py:find_inactive_nodes"]}
{"id": "C94", "title": "Greedy wireframe optimization respects constraints and limits", "statement": "optimize_wireframe with 'gsco', from any initial currents, flags and iteration limit: every constraint of the wireframe (continuity, net currents, explicitly and implicitly constrained segments; not rows written by the user) has the same value before and after, so a feasible start stays feasible; a cell is free exactly if none of its segments is forced to zero; segments outside free cells keep their currents and changed ones stay within max_current; loop counts equal the initial counts plus the recorded additions and respect max_loop_count; with no_crossing no node of the torus gets more than two active segments if it did not have them before; with no_new_coils and inactive start, or without a default current, nothing changes.", "quantifier": "all wireframe sizes, histories of constraint calls, inductance matrices, targets, parameters, initial currents and iteration numbers", "why_tests_cant": "greedy paths depend on all inputs; the crossing check looks at four nodes while a cell at a symmetry plane touches mirror nodes too", "anchors": ["src/simsopt/solve/wireframe_optimization.py:gsco_wireframe", "src/simsoptpp/wireframe_optimization.cpp:GSCO", "src/simsoptpp/wireframe_optimization.cpp:check_eligibility", "src/simsopt/geo/wireframe_toroidal.py:get_free_cells"]}
{"id": "C95", "title": "Greedy wireframe optimization records what it did", "statement": "The histories returned by GSCO are those of a sequence of additions, each allowed by the parameters and with the smallest resulting objective among all allowed ones; the recorded f_B, f_S and f are the objectives of the currents that get_gsco_iteration rebuilds for that iteration, the last of which are the returned ones. The run ends early only if no addition is allowed or on 'minimum objective reached', and then, without match_current, no allowed addition lowers the objective. An addition may raise the objective, but only if every allowed one does; taking back a positive loop is not recognised, so a run may end in a worse state than an earlier one, and with match_current the reported minimum need not be one.", "quantifier": "all tables, inductance matrices, targets, parameters, initial currents and iteration numbers", "why_tests_cant": "optimality of each choice and truth of each record must hold along every greedy path", "anchors": ["src/simsoptpp/wireframe_optimization.cpp:GSCO", "src/simsoptpp/wireframe_optimization.cpp:compute_f_S", "src/simsopt/solve/wireframe_optimization.py:get_gsco_iteration"]}
{"id": "C96", "title": "Constrained least squares for wireframes finds the optimum", "statement": "regularized_constrained_least_squares with linearly independent constraints returns a vector that satisfies C x = d, has the smallest value of 0.5|Ax-b|^2 + 0.5|Wx|^2 among all such vectors, and is the shortest of those with that value (W a number, a vector of weights or a square matrix); with dependent constraints it raises LinAlgError, with inconsistent sizes ValueError. optimize_wireframe with 'rcls' (assume_no_crossings False), after any history of constraint calls, either raises and leaves the currents alone or sets them to currents that satisfy all constraints of the wireframe and minimise field error plus weighted currents among all that do, and reports those values; on a new wireframe, with or without a prescribed poloidal current, it always succeeds. A square weight array enters only through its diagonal although the reported value uses all of it, so there the currents need not minimise the reported objective.", "quantifier": "all matrices, targets, weights, constraint sets of any size; all wireframe sizes and histories", "why_tests_cant": "optimality over an infinite set of feasible vectors for every input", "anchors": ["src/simsopt/solve/wireframe_optimization.py:regularized_constrained_least_squares", "src/simsopt/solve/wireframe_optimization.py:rcls_wireframe"]}
{"id": "C97", "title": "Radial profiles and their derivatives", "statement": "Every profile built from ProfilePolynomial, ProfileSpline, ProfileScaled and ProfilePressure, however nested and shared, evaluates to the documented function of its coefficients and components, and dfds is the derivative of f at every s. ProfilePressure refuses exactly an empty or odd list of profiles. ProfileSpec.f gives the value of the volume for indices 0..Mvol-1 and raises otherwise; ProfileSpec.dfds is the jump times psi_edge for interfaces 1..Mvol-2, but refuses the documented outermost interface Mvol-1 and answers 0, which is not an interface, with first minus last volume.", "quantifier": "all coefficient lists, nestings, scale factors, numbers of species and s", "why_tests_cant": "derivative identity for every tree of profiles and every real s", "anchors": ["src/simsopt/mhd/profiles.py:ProfilePolynomial", "src/simsopt/mhd/profiles.py:ProfileScaled", "src/simsopt/mhd/profiles.py:ProfilePressure", "src/simsopt/mhd/profiles.py:ProfileSpec"]}
{"id": "C98", "title": "Vmec results belong to the current inputs", "statement": "For the only Vmec object of a process that runs VMEC: after any history of dof changes (boundary, profiles, its own), replaced boundaries and profiles, failed runs and earlier results, an accessor (aspect, volume, iota_axis, ...) returns a value exactly when VMEC converges on the present inputs, and then that value; the result depends only on the input file and the current dofs, boundary and profiles, not on the history (the axis guess is reset); VMEC is not run again while nothing changed. Exceptions, each exact: a profile set back to None keeps acting as it was at the last run; the rs/zc coefficients of an asymmetric boundary are never given to VMEC; a second Vmec object made from another file makes the first compute with that file's parameters; a profile object used in two roles is unlinked when replaced in one; assignments to indata are not noticed unless need_to_run_code is set; an object made from a wout file raises forever once anything it depends on changes; curtor is the total current for all supported profile types except line_segment_ip.", "quantifier": "all input files, VMEC behaviours, boundaries, profiles and histories of operations of any length", "why_tests_cant": "ranges over all histories, and VMEC itself is not available to unit tests without its Fortran extension", "anchors": ["src/simsopt/mhd/vmec.py:Vmec.run", "src/simsopt/mhd/vmec.py:Vmec.set_indata", "src/simsopt/mhd/vmec.py:Vmec.set_profile", "src/simsopt/mhd/vmec.py:Vmec.set_dofs", "src/simsopt/mhd/vmec.py:Vmec.recompute_bell", "src/simsopt/mhd/vmec.py:Vmec.boundary", "src/simsopt/mhd/vmec.py:Vmec.pressure_profile"]}
{"id": "C99", "title": "Files left behind by Vmec runs", "statement": "Without keep_all_files, worker group 0 keeps the input and wout files of the first and of the most recent converged run (plus those spared by emptying files_to_delete before the next converged run), and other groups keep none; in addition the input file of every failed run in group 0, and any wout file VMEC wrote in a failed run, are never deleted. With keep_all_files everything is kept.", "quantifier": "all sequences of converged and failed runs and of resets of files_to_delete, all groups", "why_tests_cant": "ranges over all histories", "anchors": ["src/simsopt/mhd/vmec.py:Vmec.run"]}
