C01: DOFs record (values, status, names, bounds); mask gather/scatter characterised by position lists
C02: exceptions as values; a rejected call returns the unchanged state
C03: pointwise characterisation of the status array
C04: name lookup as first index; frame conditions
C05: all free views are gathers with the same mask
C06: induction over histories of all methods
C07: the setter's defect is characterised; partial
C08: heap of arrays with views; separation invariant, witness of sharing; exact effect of every write seen through every other view, by position arithmetic
C09: heap of objects with parents and cached ancestors; invariant over all histories of edits with arbitrary child order
C10: layout of the index tables from the list of unique DOFs
C11: scatter/gather through the table
C12: as C11 for the full vector; length contract partly fails; induction over the blocks: split of the block list at the end of the vector
C13: the traversal of children reaches every dependent (closure argument)
C14: refinement of cached evaluation to stateless evaluation along every history
C15: traversal invariant of free sizes
C16: multiset of parents against set of children; the shape of the state after pop_parent in every state; flags by the trace of child links
C17: gathered bounds; the fold stops at the first block
C18: induction over the argument list
C19: naming counters; distinguishable up to equality of names; NoDup of names through dedup and sort; counting occurrences of a class
C20: case analysis over R
C21: integer arithmetic
C22: Derivative as finite map from objects to arrays; pointwise algebra
C23: gather over unique DOFs equals concatenation
C24: induction on expression trees over the graph model
C25: encoder and decoder over a heap; simulation by induction on depth
C26: names as keys of the store; renaming on collision
C27: linear algebra over lists
C28: number of columns against number of free dofs at call time; loops over an appended index list; the stored shape along any history
C29: permutation of columns over groups
C30: integer division lemmas
C31: small-step semantics of leaders and workers; invariant and termination measure
C32: algebra of residual vectors
C33: state machine with oracle for the functions; refinement
C34: exact length of the failure vector
C35: list algebra of the concatenated tuples
C36: exact sign characterisation
C37: cache state machine; refinement/witness
C38: order and symmetry of the generated coil list
C39: current expression trees; induction
C40: case analysis and derivative of the penalty
C41: state machine of field caches; every history; exact stale cases
C42: cached per-coil arrays; refinement
C43: symmetry reduction over R, round-trip of reflections
C44: arithmetic over R
C45: index arithmetic of coefficient arrays
C46: coefficientwise characterisation
C47: external copies kept in sync by the recompute bell; field-wise frame of replace_dofs
C48: state machine of the Jacobian evaluator; fold over the history of calls
C49: failure path of the same; find of the first failing point, induction over the loop
C50: MPI Jacobian state machine; case analysis of the cache; induction over calls without argument
C51: as C25 with bound methods
C52: module redirection table
C53: user dictionaries that look like encodings
C54: as C35 with three problems
C55: rotation and reflection equivariance of the Biot-Savart sum
C56: derivative predicates D/D3 over R, sums over quadrature points
C57: adjoint identity by exchange of sums
C58: curl and divergence computed from the derivative theorems
C59: rotation matrix algebra
C60: chain rule through the generated coils
C61: polar coordinates, quadrant analysis
C62: derivative of the norm; rotation of components
C63: Lagrange polynomials, uniqueness; cell selection
C64: exact behaviour of cell clamping
C65: sums of trigonometric terms; derivatives
C66: linear gradient; the register loops equal the sums
C67: general theorem for linear representations; chain and quotient rules
C68: induction over mode loops; derivatives
C69: as C68 with the product with cos/sin phi
C70: quaternion rotation algebra; derivative away from zero, jump at zero
C71: derivative of norms and quotients
C72: generic cache machine with dependent bodies; invariant over histories; instances
C73: sets of cells as sorted lists; floors of close numbers differ by at most one
C74: sum over a superset with zero terms; derivative of max(x,0)^2; group action on pairs of curves
C75: invariant over histories relating the cached list to the surface it was computed from
C76: chain rule through the vjps of C71; derivative of max(x,0)^p and max(|x|-c,0)^p incl. the kink; sums of nonnegative terms
C77: the floor sequence is strictly increasing iff nint <= nq; variance zero iff all equal; pigeonhole for empty blocks
C78: sum over unordered pairs; triple product is symmetric and equivariant; permutation of the sampled indices; continuity at non-half-integers
C79: finite sums of squares; quotient and product rule; pull-back of dJdB through the field's derivative
C80: induction over the history of the shared field's points
C81: tiling lemma for the index intervals (C21); concatenation of sums; dictionaries as functions of key and index
C82: position of an index in the concatenation of the ranks' intervals; induction over the history
C83: variational inequality of the projection onto a ball; roots of the quadratic; explicit counterexample
C84: quadratic expansion along a direction; invariant gradient = A^T(Ax-b)+...; induction over iterations; stationarity implies minimality by convexity
C85: case analysis of the thresholds; induction over the rounds using C84
C86: invariant linking the stored residual, free list and score table to the placed magnets; first-minimum lemma; induction over the iterations
C87: the invariant of C86 extended by the sign/component tables; inductive removal relation; measure for the sweep; induction over the iterations
C88: counting multiples; invariant length of history = number of recorded iterations; selection-sort argument for the neighbour rows
C89: summation by parts over the segment table gives the flux form of the total outflow; the copies of a half period are matched by an explicit partner map
C90: cell potentials by cumulative sums (discrete Poincare lemma) with the two offsets fixed by the symmetry planes; linearity
C91: conservation of the row sums by induction on the toroidal index; arithmetic of the ceilings that place the coils
C92: invariants over the list of calls; the update loop computes a least fixed point, with the number of free segments as measure
C93: invariant (continuity constraints kept, flag trustworthy) over histories; implied segments vanish by C92; rows of nodes without free segments are void
C94: invariants of greedy additions (C95_trace), with C90 for the constraints and an analysis of the nodes touched by a cell, including mirror nodes
C95: check_eligibility = allowed; running residual and counts = true objectives; induction over the iterations; undoing the last step returns to a state whose best neighbour is known
C96: change of basis by Q: triangular uniqueness for the constrained part, normal equations of the projected problem for the rest (a minimiser of |N^T N v - N^T c| solves N^T N v = N^T c); rank deficiency = zero on the diagonal of R by back substitution; wireframe: C93 and the independence of the continuity rows by a potential that is constant along segments; exact QR by Householder reflections
C97: polynomial evaluation by Horner's rule and term-wise differentiation, structural induction over profile trees, product rule for the pair loop
C98: invariant over all operations (flag clear => the stored result is VMEC's verdict on the present inputs), idempotence of the input transfer, equivalence of the module data with the file on everything VMEC is given; counterexample families for the exceptions
C99: induction over the history with the set of present files and of files to delete characterised by the position of the run in the history
C100: invariant over all operations relating registry, cached dictionaries and columns to the history; argmin, sorted, set and index specifications; cell containing s for the distance bound
C101: linear independence of cosines of distinct modes, by restricting to a steep line through the torus and eliminating one frequency at a time with the shift operator f(t+h)+f(t-h)-2cos(kh)f(t); invariance along the symmetry direction then kills the breaking amplitudes
C102: the invariant of C33 extended by crashing functions; induction over the optimizer as an interactive program
C103: the invariant of C37 extended by crashing functions; induction over the optimizer
C104: the number of calls of an evaluation does not depend on the state, so leader and worker traces agree message by message; for constrained problems an invariant tying the caches to the requests since x last changed
C105: derivative rules along a curve and field identities; Euler-Lagrange expressions computed by hand and compared by ring/field
C106: vector algebra of the orthonormal frame built from B and e_z
C107: lifts of the angle are unique up to a constant; induction over the orbit
C108: invariant of the do-while loop over the number of steps; floor arithmetic for the crossings
C109: the transit criterion resets itself on the first call, so runs from different criteria states agree; block bounds tile the index range
C110: the arrays are linear in the direction of the dof, so the derivative along a curve is the contraction with the velocity; field identities for the weight
C111: sum and product rules along curves of unknowns
C112: sums over the modes reindexed as sums over the dofs; term-wise derivatives; parity of the basis functions
C113: derivatives of symmetric surfaces by uniqueness of the derivative; integer arithmetic on the grid; counting by rows
C114: state machine of run_code and the objectives over abstract Newton steps; loop invariants (norm belongs to the returned point) and an invariant of all histories (flag cleared implies the stored result is a solve for the current coils)
C115: induction on the substitution loops; transpose identity of finite sums; uniqueness of derivatives for the implicit dependence
C116: derivative of residual and Jacobian along a joint motion of field and surface by the product and chain rules, sum over the mask by induction, then C115_adjoint; the field of moving coils is an instance (derivatives of the Biot-Savart kernels split into point and source parts)
C117: as C116 with the mixed second derivatives; the Hessian term comes from C110 by uniqueness of derivatives; the wrong case is a one-point surface with an explicit Hessian factorisation
C118: the two averaging axes are unified by a fibre description of the grid; Pythagoras on each fibre; derivative of the quotient by the product rule, the terms through the symmetric part cancel; C116 for the adjoint part
C119: Cauchy-Schwarz per point as an explicit gap (the squared cross product); quotient rule and exchange of sums for the gradient
C120: position arithmetic by division with remainder; a generic lemma on sequences of assignments to distinct positions for the loops; uniqueness of strictly sorted lists for the names
C121: exact model of the two loops and of np.sum over the grid; discrete orthogonality of the trigonometric functions by telescoping sums for the four products on full, field period and half period grids; completeness through the factorisation of the kernel into two Dirichlet kernels with half weight at Nyquist
C122: state machine over coilset.x, reference, matrices and dofs with np.pad/@ shape errors; an invariant (shapes agree) kept by every operation; orthonormality by finite sums
C123: the parent-removal loop over the mutating list run on the dependency graph model of C09-C17, by induction on the remaining list; the attributes as a record of coil lists
C124: the Fourier table written by the code is evaluated to a circle (CurveModel); the coils of coils_via_symmetries (CoilModel) are rotated/reflected circles whose angle indices are shown to be a permutation of 0..N-1 by uniqueness of digits
C125: the frame formulas as functions of (gamma, gammadash, ...), differentiated along any path with the calculus of BSDeriv; Frenet-Serret (C71) for the torsion; discrete orthogonality for the mean of gammadash
C126: sums of sines and cosines shifted termwise; Bezout's identity gives the number of steps; the dof layout by splitting the vector at the block boundaries
C127: the formulas differentiated as explicit functions of the displacement; atan2_polar for the angles; uniqueness of derivatives for the failures
C128: derivatives of the kernels termwise; rotations and the mirror permute the images and the kernel is equivariant
C129: the matrix entry of one image and one dipole is linear in the normal: algebra with the sines and cosines abstract; sums exchanged
C130: the formulas differentiated along R and Z; the cross product of two solutions times B_phi is constant (divergence free), which gives area preservation and uniqueness at once; the eigenvector equation gives the characteristic polynomial, and an explicit conjugation to a rotation
C131: cosines and sines of integer multiples of an angle differentiated through the cut of atan2; sums over the modes termwise
C132: induction over expressions: the symbolic derivative is the derivative along every path, keeps the domain, and commutes; the gradient's components are themselves expressions; the added terms separated by field arithmetic
C133: the integrand for a circle vanishes term by term; equivariance by linearity of rotations; the moving evaluation point splits into the fixed-point derivative (identified with B_vjp of C57 by uniqueness) and dB_by_dX applied to the velocity
C134: (-1)^k / sin((x-x_k)/2) (or cot) is the Dirichlet kernel divided by sin(Nx/2); discrete orthogonality of the modes; at a sample the entry 1/sin(eps) dominates
C135: filter and sort by induction; the acceptance bound is weight / maximum; div and mod for the flat index
