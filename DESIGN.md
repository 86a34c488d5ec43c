# Formal model of simsopt in Rocq (Coq 8.16.1)

(DESIGN.md is written by `tools/design.py` from `tools/design_head.md`, `tools/design_how.txt`, `properties.jsonl` and `MANIFEST.json`.)

## Trusted base
* Coq's kernel (8.16.1) and `coqchk`.
* The faithfulness of the hand-written Gallina model to `/repo`: every definition of the code cites file and lines, and says where it simplifies.
* Axioms: only those of the Coq standard library, and of these only
  `ClassicalDedekindReals.sig_forall_dec`, `ClassicalDedekindReals.sig_not_dec`,
  `FunctionalExtensionality.functional_extensionality_dep` (the construction of the real numbers) and
  `Classical_Prop.classic` (through the standard library's analysis, e.g. `sin`, `PI`, derivatives).
  Theorems about `nat`, `Z` and lists are closed under the global context.
  `ASSUMPTIONS.md`, generated by `tools/assumptions.py` with `Print Assumptions`, lists the axioms of every theorem named in
  `MANIFEST.json`.  There are no axioms, parameters or section-less hypotheses of our own, no functors and no module types.

## Modelling conventions
* Floating point numbers are exact reals `R` (or an abstract value type when only their movement matters); rounding is out of scope,
  nan and inf occur only where a model says so (`None` in CacheModel.v, extended numbers in DofsModel.v).
* Exceptions are values (`inl`/`inr`, `option`); undefined behaviour of C++ (reads or writes out of bounds) is `None` where it is modelled.
* Python object graphs are heaps indexed by numbers; sets with unspecified iteration order are modelled with an arbitrary order.
* MPI programs are networks of processes with a small-step semantics (C31) or, where only values matter, loops over groups (C29).
* OpenMP loops are run in order, SIMD packets one lane at a time.
* Calls into numpy, scipy, jax, Eigen are replaced by the mathematical operation they name; jax's `grad`/`vjp` are not modelled, hand-written derivatives are.
* A property the code does not have is restated as the exact characterisation of what the code does (a "finding"), and the
  theorem exhibits both sides; `_refuted` and `_partial` in theorem names mean that the English property fails resp. is only partly proved.

## What is modelled
| Source in /repo | Model |
|---|---|
| `_core/optimizable.py`: DOFs, Optimizable, make_optimizable, ScaledOptimizable, OptimizableSum | DofsModel, AliasModel, GraphModel, GraphCache, MakeOptModel, DerivModel |
| `_core/derivative.py` | DerivModel |
| `_core/json.py` | JsonModel |
| `_core/util.py`: finite_difference_steps, parallel_loop_bounds, object names | PartitionModel, MakeOptModel |
| `_core/finite_difference.py` | FDModel |
| `util/mpi.py` | PartitionModel, MpiLoopModel |
| `objectives/least_squares.py`, `constrained.py`, `utilities.py` (QuadraticPenalty) | LsqModel, PenaltyModel |
| `field/coil.py`, `geo/curve.py` (RotatedCurve) | CoilModel |
| `simsoptpp/biot_savart_impl.h`, `biot_savart_vjp_impl.h`, `magneticfield_biotsavart.*` | BSModel |
| `simsoptpp/magneticfield.h`, `cachedtensor.h`, `cache.h`, `cachedarray.h`, `field/biotsavart.py`, `field/magneticfield.py` | PointsModel, FieldModel |
| `simsoptpp/magneticfield_interpolated.h`, `regular_grid_interpolant_3d*` | SymModel, InterpModel |
| `geo/surface.py` (quadrature points), `geo/surfacerzfourier.py`, `simsoptpp/surfacerzfourier.*`, `simsoptpp/surface.cpp` | SurfQuad, SurfModel, SurfRes, SurfGeom, SurfDiff |
| `simsoptpp/curve*.{h,cpp}`, `geo/curve.py`, `geo/curvexyzfourier.py` | CurveModel, PlanarModel, CurveDiff |
| caches of `simsoptpp/curve.h`, `surface.h` | CacheModel, CurveCache |
| `geo/curveobjectives.py` (distances), `simsoptpp/python_distance.cpp` | DistModel |
| `geo/curveobjectives.py` (length, curvature, torsion, arclength variation, linking number) | CurveObjModel |
| `objectives/fluxobjective.py`, `simsoptpp/integral_BdotN.cpp` | FluxModel |
| `solve/permanent_magnet_optimization.py` (relax_and_split, prox_l0, prox_l1), `simsoptpp/permanent_magnet_optimization.cpp` (MwPGP) | PMModel |
| `simsoptpp/permanent_magnet_optimization.cpp` (GPMO_baseline, GPMO_backtracking, connectivity_matrix), `solve/permanent_magnet_optimization.py` (GPMO) | GPMOModel |
| `geo/wireframe_toroidal.py` (tables, constraints, TF coils; not plotting and VTK output) | WFModel |
| `simsoptpp/wireframe_optimization.cpp` (GSCO, check_eligibility), `solve/wireframe_optimization.py` (gsco_wireframe, get_gsco_iteration) | GSCOModel |
| `solve/wireframe_optimization.py` (rcls_wireframe, regularized_constrained_least_squares; LAPACK's QR and least squares by contract) | RCLSModel |
| `objectives/utilities.py` (sum_across_comm, MPIOptimizable, MPIObjective) | MpiObjModel |
| `mhd/profiles.py` | ProfileModel |
| `mhd/vmec.py` (run, set_indata, set_profile, setters, load_wout outcome; VMEC itself arbitrary) | VmecModel |
| `mhd/vmec.py` (files written and deleted by run) | VmecFiles |
| `mhd/boozer.py` (registry, run caching, Quasisymmetry.J; booz_xform itself arbitrary) | BoozerModel |
| `solve/serial.py`, `solve/mpi.py` (derivative-free mode; scipy is an arbitrary program) | SolveModel, SolveMpi |
| `src/simsoptpp/tracing.{h,cpp}`, `field/tracing.py` (boost integrator and root finder arbitrary) | TraceRhs, TraceInit, TraceAngle, TraceLoop, TraceThms |
| `geo/surfaceobjectives.py` boozer_surface_residual, `simsoptpp/boozerresidual_impl.h`, `geo/boozersurface.py` penalty and exact-constraint systems | BoozSurf, BoozProps, BoozThms |
| `simsoptpp/surfacexyztensorfourier.h`, `geo/surfacexyztensorfourier.py` (not to_RZFourier, get_stellsym_mask: see C113) | TensorModel, TensorProps, TensorThms, TensorSym |
| `geo/surfacexyztensorfourier.py` get_stellsym_mask, `geo/boozersurface.py` selection of equations | MaskModel, MaskProps |
| `BoozRun.v`, `BoozRunProps.v` | run logic of `BoozerSurface` and of `Iotas` (boozersurface.py, surfaceobjectives.py) |
| `AdjLin.v`, `AdjModel.v`, `AdjProps.v`, `AdjThms.v`, `AdjCoils.v`, `AdjEx.v` | `forward_backward`, `boozer_surface_residual_dB`, the vector-Jacobian products of exact and least squares Boozer surfaces and the gradients of `Iotas`, `MajorRadius`, `BoozerResidual` (objectives/utilities.py, surfaceobjectives.py) |
| `QsrModel.v`, `QsrProps.v`, `QsrThms.v`, `QfmProps.v` | `NonQuasiSymmetricRatio` and `QfmResidual` (surfaceobjectives.py) |
| `NormModel.v`, `NormProps.v` | `NormalField` (normal_field.py): arrays, dofs, names, resolution |
| `FourModel`, `FourProps`, `FourVals` | SurfaceRZFourier.fourier_transform_scalar and inverse_fourier_transform_scalar |
| `RedModel`, `RedProps` | ReducedCoilSet |
| `CoilSetModel`, `CoilSetProps` | CoilSet: construction, setters, dependencies of the penalties |
| `EqModel`, `EqProps` | create_equally_spaced_curves, CoilSet.for_surface |
| `FrameModel`, `FrameProps` | frames, filaments and strain of finite build coils |
| `HelixModel`, `HelixProps` | CurveXYZFourierSymmetries, CurveHelical |
| `FieldAModel`, `FieldAProps` | ToroidalField, PoloidalField, MirrorModel |
| `DipoleModel`, `DipoleProps` | dipole fields, DipoleField, dipole_field_Bn |
| `AxisModel`, `AxisProps` | compute_on_axis_iota |
| `ReimanModel`, `ReimanProps` | the Reiman field |
| `ScalarModel`, `ScalarProps` | fields given by a scalar potential |
| `ForceModel`, `ForceProps` | self field and force objectives |
| `FintModel`, `FintProps` | `util/fourier_interpolation.py` |
| `SampleModel`, `SampleProps` | `field/sampling.py` |


Not modelled: everything else; in particular the external codes (VMEC, SPEC, booz_xform, virtual casing) and their input/output,
the jax-traced functions except where stated, guiding-centre integration, plotting, Eigen's and scipy's solvers.

## Testing the theorems
`seeded/LOG.jsonl` records mutations of the models (a wrong boundary, a missed case, a swapped argument, a dropped update), the
theorems that then fail and, where all still proved, the theorems that were tightened.

## Plan per property

| Id | Property | Status | Files of the theorems | What is modelled and how it is proved |
|---|---|---|---|---|
| C01 | Setting the free dofs of an object and reading them back is lossless and leaves fixed dofs alone | proved | DofsProps | DOFs record (values, status, names, bounds); mask gather/scatter characterised by position lists |
| C02 | An assignment of the wrong length is rejected atomically | proved | DofsProps | exceptions as values; a rejected call returns the unchanged state |
| C03 | fix/unfix change only the status of the named dof | proved | DofsProps | pointwise characterisation of the status array |
| C04 | get/set by name address exactly one dof | proved | DofsProps | name lookup as first index; frame conditions |
| C05 | The free views of an object are mutually aligned | proved | DofsProps | all free views are gathers with the same mask |
| C06 | DOFs stay well formed under every operation history | proved | DofsProps | induction over histories of all methods |
| C07 | The setters of the full bounds always raise and change nothing | proved | DofsProps | the setter's defect is characterised; partial |
| C08 | Two objects that do not share DOFs do not influence each other | proved | AliasModel, ExactAlias | heap of arrays with views; separation invariant, witness of sharing; exact effect of every write seen through every other view, by position arithmetic |
| C09 | The ancestor list is exactly the transitive closure of the parent relation after any edit of the graph | proved | GraphProps | heap of objects with parents and cached ancestors; invariant over all histories of edits with arbitrary child order |
| C10 | The global free vector is partitioned into contiguous disjoint blocks, one per distinct DOFs | proved | GraphProps | layout of the index tables from the list of unique DOFs |
| C11 | x set/get round trip through the graph | proved | GraphProps | scatter/gather through the table |
| C12 | full_x set/get round trip and its length contract | proved | ExactGraph, GraphProps | as C11 for the full vector; length contract partly fails; induction over the blocks: split of the block list at the end of the vector |
| C13 | Changing any dof flags every dependent object for recomputation | proved | GraphProps | the traversal of children reaches every dependent (closure argument) |
| C14 | A cached objective is never stale | proved | GraphProps | refinement of cached evaluation to stateless evaluation along every history |
| C15 | fix/unfix anywhere updates the free dimension of every dependent | proved | GraphProps | traversal invariant of free sizes |
| C16 | Removing one of two identical parents keeps the dependency alive | proved | ExactGraph, GraphProps | multiset of parents against set of children; the shape of the state after pop_parent in every state; flags by the trace of child links |
| C17 | Bounds of a composite object | proved | ExactGraph, GraphProps | gathered bounds; the fold stops at the first block |
| C18 | make_optimizable calls the user function with the arguments in the original positions | proved | MakeOptModel | induction over the argument list |
| C19 | Names of objects, and what equal names do | proved | ExactGraph, MakeOptModel | naming counters; distinguishable up to equality of names; NoDup of names through dedup and sort; counting occurrences of a class |
| C20 | Finite difference step sizes are positive and never below the absolute step | proved | PartitionProps | case analysis over R |
| C21 | Parallel loop bounds tile the index range | proved | PartitionProps | integer arithmetic |
| C22 | Derivative arithmetic is linear | proved | DerivProps | Derivative as finite map from objects to arrays; pointwise algebra |
| C23 | The gradient of an object is the concatenation of the free partials over its unique DOFs | proved | GradProps | gather over unique DOFs equals concatenation |
| C24 | Sums and scalar multiples of objectives have the sum and scalar multiple as value and gradient | proved | ExprProps | induction on expression trees over the graph model |
| C25 | Saving and loading an object graph preserves contents and sharing | proved | JsonProps | encoder and decoder over a heap; simulation by induction on depth |
| C26 | Objects with equal names are not confused by serialization | proved | JsonProps | names as keys of the store; renaming on collision |
| C27 | Finite difference Jacobians are exact on affine maps and leave x unchanged | proved | FDProps | linear algebra over lists |
| C28 | Number of columns of a finite difference Jacobian | proved | ExactFD, FDProps | number of columns against number of free dofs at call time; loops over an appended index list; the stored shape along any history |
| C29 | The MPI finite difference Jacobian equals the serial one for any number of groups | proved | FDProps | permutation of columns over groups |
| C30 | MPI groups partition the processes | proved | PartitionProps | integer division lemmas |
| C31 | Worker and leader loops all terminate and every mobilized call is executed by the whole group | proved | MpiLoopProps | small-step semantics of leaders and workers; invariant and termination measure |
| C32 | The least squares objective is the squared norm of the residual vector | proved | LsqProps | algebra of residual vectors |
| C33 | Least squares residuals are always those of the current dofs | proved | LsqProps | state machine with oracle for the functions; refinement |
| C34 | Failure vector length after a retried first evaluation | proved | LsqProps | exact length of the failure vector |
| C35 | Concatenating least squares problems keeps each goal and weight with its function | proved | LsqSum | list algebra of the concatenated tuples |
| C36 | Constraint values reported to the solver are non-positive exactly when the bounds hold | proved | ConProps | exact sign characterisation |
| C37 | Constrained problem caches are coherent | proved | ConProps | cache state machine; refinement/witness |
| C38 | coils_via_symmetries generates the complete symmetric set in a fixed order | proved | CoilProps | order and symmetry of the generated coil list |
| C39 | Current algebra and its vjp | proved | CoilProps | current expression trees; induction |
| C40 | Quadratic penalty value and gradient | proved | PenaltyModel | case analysis and derivative of the penalty |
| C41 | Magnetic field evaluations are never stale | proved | FieldProps | state machine of field caches; every history; exact stale cases |
| C42 | Per-coil fields and potentials used for current derivatives | proved | FieldProps | cached per-coil arrays; refinement |
| C43 | Symmetry reduction of evaluation points is exact; it lands in the interpolation domain exactly for non-negative angles | proved | SymModel | symmetry reduction over R, round-trip of reflections |
| C44 | Quadrature points | proved | SurfQuad | arithmetic over R |
| C45 | SurfaceRZFourier dof names, the m and n arrays and the coefficient arrays agree | proved | SurfProps | index arithmetic of coefficient arrays |
| C46 | change_resolution preserves common coefficients and zero-pads; fixed_range fixes exactly the range | proved | SurfRes | coefficientwise characterisation |
| C47 | Values held by the C++ side follow the dofs of the object | proved | ExactGraph, GraphProps | external copies kept in sync by the recompute bell; field-wise frame of replace_dofs |
| C48 | Point used by FiniteDifference.jac() without argument | proved | ExactFD, FDProps | state machine of the Jacobian evaluator; fold over the history of calls |
| C49 | State of opt.x after FiniteDifference.jac | proved | ExactFD, FDProps | failure path of the same; find of the first failing point, induction over the loop |
| C50 | Staleness of MPIFiniteDifference.jac | proved | ExactFD, FDProps | MPI Jacobian state machine; case analysis of the cache; induction over calls without argument |
| C51 | Bound methods of one object stay methods of one object after saving and loading | proved | JsonProps | as C25 with bound methods |
| C52 | Redirected classes load from their new module | proved | JsonProps | module redirection table |
| C53 | User dictionaries survive saving and loading | proved | JsonProps | user dictionaries that look like encodings |
| C54 | Adding three least squares problems of which two share an object | proved | LsqSum | as C35 with three problems |
| C55 | The field of a symmetric coil set has the symmetry | proved | CoilProps | rotation and reflection equivariance of the Biot-Savart sum |
| C56 | dB_by_dX, d2B_by_dXdX, dA_by_dX, d2A_by_dXdX are the derivatives | proved | BSDeriv | derivative predicates D/D3 over R, sums over quadrature points |
| C57 | The Biot-Savart vjp kernels are the transposed Jacobian | proved | BSVjp | adjoint identity by exchange of sums |
| C58 | Maxwell identities hold exactly for the discretised coils | proved | BSDeriv | curl and divergence computed from the derivative theorems |
| C59 | RotatedCurve | proved | CoilProps | rotation matrix algebra |
| C60 | B_vjp with symmetric coils is the derivative with respect to the base curves and currents | proved | CoilProps | chain rule through the generated coils |
| C61 | Cartesian and cylindrical evaluation points | proved | PointsModel | polar coordinates, quadrant analysis |
| C62 | GradAbsB and the cylindrical components are what their names say | proved | FieldProps | derivative of the norm; rotation of components |
| C63 | The grid interpolant is the piecewise polynomial through the nodes | proved | InterpProps, InterpThms | Lagrange polynomials, uniqueness; cell selection |
| C64 | What the grid interpolant does outside its box | proved | InterpThms | exact behaviour of cell clamping |
| C65 | SurfaceRZFourier: positions are the documented Fourier series and the derivatives are its derivatives | proved | SurfGeomProps | sums of trigonometric terms; derivatives |
| C66 | SurfaceRZFourier: dof derivatives and vector-Jacobian products | proved | SurfGeomJac | linear gradient; the register loops equal the sums |
| C67 | Area, volume, normals and curvatures come with their exact dof derivatives | proved | SurfDiffProps, SurfRZDiff | general theorem for linear representations; chain and quotient rules |
| C68 | CurveXYZFourier evaluates the documented Fourier series, with exact derivatives | proved | CurveProps | induction over mode loops; derivatives |
| C69 | CurveRZFourier evaluates the documented series in R and z, with exact derivatives | proved | CurveProps | as C68 with the product with cos/sin phi |
| C70 | CurvePlanarFourier is a rotated planar polar curve; its dof derivatives are right exactly away from the zero quaternion | proved | PlanarProps | quaternion rotation algebra; derivative away from zero, jump at zero |
| C71 | Arclength, curvature, torsion and Frenet frame of curves, with exact derivatives | proved | CurveDiffProps | derivative of norms and quotients |
| C72 | Cached curve and surface arrays: exactly when they are current | proved | CacheProps, CurveCache | generic cache machine with dependent bodies; invariant over histories; instances |
| C73 | Close point clouds are found exactly | proved | DistProps | sets of cells as sorted lists; floors of close numbers differ by at most one |
| C74 | CurveCurveDistance: value, gradient and shortest distance | proved | DistGrad, DistProps | sum over a superset with zero terms; derivative of max(x,0)^2; group action on pairs of curves |
| C75 | CurveSurfaceDistance and its list of close curves | proved | DistGrad | invariant over histories relating the cached list to the surface it was computed from |
| C76 | Length, curvature, torsion and mean squared curvature objectives | proved | CurveObjProps | chain rule through the vjps of C71; derivative of max(x,0)^p and max(|x|-c,0)^p incl. the kink; sums of nonnegative terms |
| C77 | ArclengthVariation | proved | CurveObjProps | the floor sequence is strictly increasing iff nint <= nq; variance zero iff all equal; pigeonhole for empty blocks |
| C78 | LinkingNumber | proved | LinkProps | sum over unordered pairs; triple product is symmetric and equivariant; permutation of the sampled indices; continuity at non-half-integers |
| C79 | SquaredFlux: value, zero set, invariances and gradient | proved | FluxProps | finite sums of squares; quotient and product rule; pull-back of dJdB through the field's derivative |
| C80 | SquaredFlux evaluates the field wherever its points were set last | proved | FluxProps | induction over the history of the shared field's points |
| C81 | MPIObjective: mean over the objectives of all ranks | proved | MpiObjProps | tiling lemma for the index intervals (C21); concatenation of sums; dictionaries as functions of key and index |
| C82 | MPIOptimizable: attributes of the owner after a change of dofs | proved | MpiObjProps | position of an index in the concatenation of the ranks' intervals; induction over the history |
| C83 | Permanent magnets: bound on the dipole moments | proved | PMProps, PMRelax | variational inequality of the projection onto a ball; roots of the quadratic; explicit counterexample |
| C84 | MwPGP descends and stops at minimisers | proved | PMProps, PMRelax | quadratic expansion along a direction; invariant gradient = A^T(Ax-b)+...; induction over iterations; stationarity implies minimality by convexity |
| C85 | Relax-and-split: proximal maps, descent and the quiet mode | proved | PMRelax | case analysis of the thresholds; induction over the rounds using C84 |
| C86 | Greedy permanent magnets: each placement is the best one | proved | GPMOOver, GPMOProps | invariant linking the stored residual, free list and score table to the placed magnets; first-minimum lemma; induction over the iterations |
| C87 | Greedy permanent magnets with backtracking | proved | GPMOBack | the invariant of C86 extended by the sign/component tables; inductive removal relation; measure for the sweep; induction over the iterations |
| C88 | Greedy permanent magnets: history buffers and neighbour lists | proved | GPMOBack, GPMOOver, GPMOProps | counting multiples; invariant length of history = number of recorded iterations; selection-sort argument for the neighbour rows |
| C89 | Wireframe: the continuity constraints are Kirchhoff's law on the whole torus | proved | WFThms | summation by parts over the segment table gives the flux form of the total outflow; the copies of a half period are matched by an explicit partner map |
| C90 | Wireframe cells span the admissible changes | proved | WFCells | cell potentials by cumulative sums (discrete Poincare lemma) with the two offsets fixed by the symmetry planes; linearity |
| C91 | Wireframe: net currents and TF coils | proved | WFCurrents | conservation of the row sums by induction on the toroidal index; arithmetic of the ceilings that place the coils |
| C92 | Wireframe segment constraints: bookkeeping over every history | proved | WFCalls, WFConstr | invariants over the list of calls; the update loop computes a least fixed point, with the number of free segments as measure |
| C93 | Wireframe constraint matrices describe the feasible currents | proved | WFMatrix | invariant (continuity constraints kept, flag trustworthy) over histories; implied segments vanish by C92; rows of nodes without free segments are void |
| C94 | Greedy wireframe optimization respects constraints and limits | proved | GSCOProps, GSCOWire | invariants of greedy additions (C95_trace), with C90 for the constraints and an analysis of the nodes touched by a cell, including mirror nodes |
| C95 | Greedy wireframe optimization records what it did | proved | GSCOProps, GSCOWire | check_eligibility = allowed; running residual and counts = true objectives; induction over the iterations; undoing the last step returns to a state whose best neighbour is known |
| C96 | Constrained least squares for wireframes finds the optimum | proved | RCLSFresh, RCLSKern, RCLSProps, RCLSThms | change of basis by Q: triangular uniqueness for the constrained part, normal equations of the projected problem for the rest (a minimiser of |N^T N v - N^T c| solves N^T N v = N^T c); rank deficiency = zero on the diagonal of R by back substitution; wireframe: C93 and the independence of the continuity rows by a potential that is constant along segments; exact QR by Householder reflections |
| C97 | Radial profiles and their derivatives | proved | ProfileProps | polynomial evaluation by Horner's rule and term-wise differentiation, structural induction over profile trees, product rule for the pair loop |
| C98 | Vmec results belong to the current inputs | proved | VmecProps, VmecThms | invariant over all operations (flag clear => the stored result is VMEC's verdict on the present inputs), idempotence of the input transfer, equivalence of the module data with the file on everything VMEC is given; counterexample families for the exceptions |
| C99 | Files left behind by Vmec runs | proved | VmecFiles | induction over the history with the set of present files and of files to delete characterised by the position of the run in the history |
| C100 | Boozer data belong to the requested surface and the current equilibrium | proved | BoozerProps | invariant over all operations relating registry, cached dictionaries and columns to the history; argmin, sorted, set and index specifications; cell containing s for the distance bound |
| C101 | Quasisymmetry.J vanishes exactly on quasisymmetric fields | proved | QSProps | linear independence of cosines of distinct modes, by restricting to a steep line through the torus and eliminating one frequency at a time with the shift operator f(t+h)+f(t-h)-2cos(kh)f(t); invariance along the symmetry direction then kills the breaking amplitudes |
| C102 | least_squares_serial_solve runs the optimizer on the weighted residuals of the problem | proved | SolveProps | the invariant of C33 extended by crashing functions; induction over the optimizer as an interactive program |
| C103 | serial_solve and constrained_serial_solve evaluate at the requested point | proved | SolveCon | the invariant of C37 extended by crashing functions; induction over the optimizer |
| C104 | MPI solvers: same optimization as serial, and all processes of a group make the same function calls | proved | SolveMpiProps | the number of calls of an evaluation does not depend on the state, so leader and worker traces agree message by message; for constrained problems an invariant tying the caches to the requests since x last changed |
| C105 | Tracing integrates the stated equations of motion, which conserve energy (and canonical momentum) | proved | TraceRhs | derivative rules along a curve and field identities; Euler-Lagrange expressions computed by hand and compared by ring/field |
| C106 | Full-orbit initial conditions correspond to the guiding centre | proved | TraceInit | vector algebra of the orthonormal frame built from B and e_z |
| C107 | Toroidal/poloidal transits and the transit stopping criterion count turns | proved | TraceAngle | lifts of the angle are unique up to a constant; induction over the orbit |
| C108 | A traced path and its hits are exactly those of the integrator's steps up to tmax or the first stopping criterion | proved | TraceLoop, TraceThms | invariant of the do-while loop over the number of steps; floor arithmetic for the crossings |
| C109 | Particles are traced independently of order, process and earlier use of the criteria | proved | TraceThms | the transit criterion resets itself on the first call, so runs from different criteria states agree; block bounds tile the index range |
| C110 | BoozerSurface penalty objective: exact gradient and Hessian, python and C++ versions equal, zero exactly on the wanted surface | proved | BoozProps, BoozThms | the arrays are linear in the direction of the dof, so the derivative along a curve is the contraction with the velocity; field identities for the weight |
| C111 | boozer_exact_constraints is the first order optimality system of the constrained problem | proved | BoozThms | sum and product rules along curves of unknowns |
| C112 | SurfaceXYZTensorFourier: dofs round trip, exact derivatives and Jacobians, symmetries; clamping breaks the second derivatives | proved | TensorProps, TensorSym, TensorThms | sums over the modes reindexed as sums over the dofs; term-wise derivatives; parity of the basis functions |
| C113 | get_stellsym_mask keeps exactly one point of each mirror pair; the exact Boozer system is square and complete | proved | MaskProps | derivatives of symmetric surfaces by uniqueness of the derivative; integer arithmetic on the grid; counting by rows |
| C114 | BoozerSurface: success flag, run caching and objective values are consistent with the coils | proved | BoozRunProps | state machine of run_code and the objectives over abstract Newton steps; loop invariants (norm belongs to the returned point) and an invariant of all histories (flag cleared implies the stored result is a solve for the current coils) |
| C115 | forward_backward solves the transposed system, and the adjoint it returns gives the total derivative | proved | AdjLin | induction on the substitution loops; transpose identity of finite sums; uniqueness of derivatives for the implicit dependence |
| C116 | Gradients of objectives on exact Boozer surfaces are the derivatives with respect to the coils | proved | AdjCoils, AdjProps, AdjThms | derivative of residual and Jacobian along a joint motion of field and surface by the product and chain rules, sum over the mask by induction, then C115_adjoint; the field of moving coils is an instance (derivatives of the Biot-Savart kernels split into point and source parts) |
| C117 | Gradients of objectives on least squares Boozer surfaces: exact for surface labels, wrong for labels that depend on the coils | proved | AdjCoils, AdjEx, AdjThms | as C116 with the mixed second derivatives; the Hessian term comes from C110 by uniqueness of derivatives; the wrong case is a one-point surface with an explicit Hessian factorisation |
| C118 | NonQuasiSymmetricRatio: sign, zero set, best approximation, and exact partial derivatives | proved | QsrProps, QsrThms | the two averaging axes are unified by a fibre description of the grid; Pythagoras on each fibre; derivative of the quotient by the product rule, the terms through the symmetric part cancel; C116 for the adjoint part |
| C119 | QfmResidual lies in [0, 1], with exact extreme cases and exact gradient | proved | QfmProps | Cauchy-Schwarz per point as an explicit gap (the squared cross product); quotient rule and exchange of sums for the gradient |
| C120 | NormalField: mode numbering, names, set/get, resolution changes; the array copy is not kept in step with the dofs | proved | NormProps | position arithmetic by division with remainder; a generic lemma on sequences of assignments to distinct positions for the loops; uniqueness of strictly sorted lists for the names |
| C121 | Fourier transforms of a scalar on a surface are inverse to each other | proved | FourProps, FourVals | exact model of the two loops and of np.sum over the grid; discrete orthogonality of the trigonometric functions by telescoping sums for the four products on full, field period and half period grids; completeness through the factorisation of the kernel into two Dirichlet kernels with half weight at Nyquist |
| C122 | The dofs of a ReducedCoilSet place the coils | proved | RedProps | state machine over coilset.x, reference, matrices and dofs with np.pad/@ shape errors; an invariant (shapes agree) kept by every operation; orthonormality by finite sums |
| C123 | The coils, field and dependencies of a CoilSet belong together | proved | CoilSetProps | the parent-removal loop over the mutating list run on the dependency graph model of C09-C17, by induction on the remaining list; the attributes as a record of coil lists |
| C124 | Equally spaced coils are equally spaced | proved | EqProps | the Fourier table written by the code is evaluated to a circle (CurveModel); the coils of coils_via_symmetries (CoilModel) are rotated/reflected circles whose angle indices are shown to be a permutation of 0..N-1 by uniqueness of digits |
| C125 | Frames of finite build coils | proved | FrameProps | the frame formulas as functions of (gamma, gammadash, ...), differentiated along any path with the calculus of BSDeriv; Frenet-Serret (C71) for the torsion; discrete orthogonality for the mean of gammadash |
| C126 | Symmetries of CurveXYZFourierSymmetries and CurveHelical | proved | HelixProps | sums of sines and cosines shifted termwise; Bezout's identity gives the number of steps; the dof layout by splitting the vector at the block boundaries |
| C127 | Analytic toroidal, poloidal and mirror fields | proved | FieldAProps | the formulas differentiated as explicit functions of the displacement; atan2_polar for the angles; uniqueness of derivatives for the failures |
| C128 | The field of a DipoleField | proved | DipoleProps | derivatives of the kernels termwise; rotations and the mirror permute the images and the kernel is equivariant |
| C129 | The inductance matrix of the permanent magnets is the normal field of the dipoles | proved | DipoleProps | the matrix entry of one image and one dipole is linear in the normal: algebra with the sines and cosines abstract; sums exchanged |
| C130 | Rotational transform on the magnetic axis | proved | AxisProps | the formulas differentiated along R and Z; the cross product of two solutions times B_phi is constant (divergence free), which gives area preservation and uniqueness at once; the eigenvector equation gives the characteristic polynomial, and an explicit conjugation to a rotation |
| C131 | The Reiman model field | proved | ReimanProps | cosines and sines of integer multiples of an angle differentiated through the cut of atan2; sums over the modes termwise |
| C132 | Fields given by a scalar potential | proved | ScalarProps | induction over expressions: the symbolic derivative is the derivative along every path, keeps the domain, and commutes; the gradient's components are themselves expressions; the added terms separated by field arithmetic |
| C133 | Self field and forces of coils | proved | ForceProps | the integrand for a circle vanishes term by term; equivariance by linearity of rotations; the moving evaluation point splits into the fixed-point derivative (identified with B_vjp of C57 by uniqueness) and dB_by_dX applied to the velocity |
| C134 | Fourier interpolation of periodic data | proved | FintProps | (-1)^k / sin((x-x_k)/2) (or cot) is the Dirichlet kernel divided by sin(Nx/2); discrete orthogonality of the modes; at a sample the entry 1/sin(eps) dominates |
| C135 | Rejection sampling on curves and surfaces | proved | SampleProps | filter and sort by induction; the acceptance bound is weight / maximum; div and mod for the flat index |
