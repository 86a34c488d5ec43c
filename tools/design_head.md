# Formal model of simsopt in Rocq (Coq 8.16.1)

(DESIGN.md is written by `tools/design.py` from `tools/design_head.md`, `tools/design_how.txt`, `properties.jsonl` and `MANIFEST.json`.)

## Trusted base
* Coq's kernel (8.16.1) and `coqchk`.
* The faithfulness of the hand-written Gallina model to `/repo`: every definition of the code cites file and lines, and says where it simplifies.
* Axioms: only those of the Coq standard library, and of these only
  `ClassicalDedekindReals.sig_forall_dec`, `ClassicalDedekindReals.sig_not_dec`,
  `FunctionalExtensionality.functional_extensionality_dep` (the construction of the real numbers) and
  `Classical_Prop.classic` (through the standard library's analysis, e.g. `sin`, `PI`, derivatives).
  Theorems about `nat`, `Z` and lists are closed under the global context.
  `ASSUMPTIONS.md`, generated by `tools/assumptions.py` with `Print Assumptions`, lists the axioms of every theorem named in
  `MANIFEST.json`.  There are no axioms, parameters or section-less hypotheses of our own, no functors and no module types.

## Modelling conventions
* Floating point numbers are exact reals `R` (or an abstract value type when only their movement matters); rounding is out of scope,
  nan and inf occur only where a model says so (`None` in CacheModel.v, extended numbers in DofsModel.v).
* Exceptions are values (`inl`/`inr`, `option`); undefined behaviour of C++ (reads or writes out of bounds) is `None` where it is modelled.
* Python object graphs are heaps indexed by numbers; sets with unspecified iteration order are modelled with an arbitrary order.
* MPI programs are networks of processes with a small-step semantics (C31) or, where only values matter, loops over groups (C29).
* OpenMP loops are run in order, SIMD packets one lane at a time.
* Calls into numpy, scipy, jax, Eigen are replaced by the mathematical operation they name; jax's `grad`/`vjp` are not modelled, hand-written derivatives are.
* A property the code does not have is restated as the exact characterisation of what the code does (a "finding"), and the
  theorem exhibits both sides; `_refuted` and `_partial` in theorem names mean that the English property fails resp. is only partly proved.

## What is modelled
| Source in /repo | Model |
|---|---|
| `_core/optimizable.py`: DOFs, Optimizable, make_optimizable, ScaledOptimizable, OptimizableSum | DofsModel, AliasModel, GraphModel, GraphCache, MakeOptModel, DerivModel |
| `_core/derivative.py` | DerivModel |
| `_core/json.py` | JsonModel |
| `_core/util.py`: finite_difference_steps, parallel_loop_bounds, object names | PartitionModel, MakeOptModel |
| `_core/finite_difference.py` | FDModel |
| `util/mpi.py` | PartitionModel, MpiLoopModel |
| `objectives/least_squares.py`, `constrained.py`, `utilities.py` (QuadraticPenalty) | LsqModel, PenaltyModel |
| `field/coil.py`, `geo/curve.py` (RotatedCurve) | CoilModel |
| `simsoptpp/biot_savart_impl.h`, `biot_savart_vjp_impl.h`, `magneticfield_biotsavart.*` | BSModel |
| `simsoptpp/magneticfield.h`, `cachedtensor.h`, `cache.h`, `cachedarray.h`, `field/biotsavart.py`, `field/magneticfield.py` | PointsModel, FieldModel |
| `simsoptpp/magneticfield_interpolated.h`, `regular_grid_interpolant_3d*` | SymModel, InterpModel |
| `geo/surface.py` (quadrature points), `geo/surfacerzfourier.py`, `simsoptpp/surfacerzfourier.*`, `simsoptpp/surface.cpp` | SurfQuad, SurfModel, SurfRes, SurfGeom, SurfDiff |
| `simsoptpp/curve*.{h,cpp}`, `geo/curve.py`, `geo/curvexyzfourier.py` | CurveModel, PlanarModel, CurveDiff |
| caches of `simsoptpp/curve.h`, `surface.h` | CacheModel, CurveCache |
| `geo/curveobjectives.py` (distances), `simsoptpp/python_distance.cpp` | DistModel |
| `geo/curveobjectives.py` (length, curvature, torsion, arclength variation, linking number) | CurveObjModel |
| `objectives/fluxobjective.py`, `simsoptpp/integral_BdotN.cpp` | FluxModel |
| `solve/permanent_magnet_optimization.py` (relax_and_split, prox_l0, prox_l1), `simsoptpp/permanent_magnet_optimization.cpp` (MwPGP) | PMModel |
| `simsoptpp/permanent_magnet_optimization.cpp` (GPMO_baseline, GPMO_backtracking, connectivity_matrix), `solve/permanent_magnet_optimization.py` (GPMO) | GPMOModel |
| `geo/wireframe_toroidal.py` (tables, constraints, TF coils; not plotting and VTK output) | WFModel |
| `simsoptpp/wireframe_optimization.cpp` (GSCO, check_eligibility), `solve/wireframe_optimization.py` (gsco_wireframe, get_gsco_iteration) | GSCOModel |
| `solve/wireframe_optimization.py` (rcls_wireframe, regularized_constrained_least_squares; LAPACK's QR and least squares by contract) | RCLSModel |
| `objectives/utilities.py` (sum_across_comm, MPIOptimizable, MPIObjective) | MpiObjModel |
| `mhd/profiles.py` | ProfileModel |
| `mhd/vmec.py` (run, set_indata, set_profile, setters, load_wout outcome; VMEC itself arbitrary) | VmecModel |
| `mhd/vmec.py` (files written and deleted by run) | VmecFiles |
| `mhd/boozer.py` (registry, run caching, Quasisymmetry.J; booz_xform itself arbitrary) | BoozerModel |
| `solve/serial.py`, `solve/mpi.py` (derivative-free mode; scipy is an arbitrary program) | SolveModel, SolveMpi |
| `src/simsoptpp/tracing.{h,cpp}`, `field/tracing.py` (boost integrator and root finder arbitrary) | TraceRhs, TraceInit, TraceAngle, TraceLoop, TraceThms |
| `geo/surfaceobjectives.py` boozer_surface_residual, `simsoptpp/boozerresidual_impl.h`, `geo/boozersurface.py` penalty and exact-constraint systems | BoozSurf, BoozProps, BoozThms |
| `simsoptpp/surfacexyztensorfourier.h`, `geo/surfacexyztensorfourier.py` (not to_RZFourier, get_stellsym_mask: see C113) | TensorModel, TensorProps, TensorThms, TensorSym |
| `geo/surfacexyztensorfourier.py` get_stellsym_mask, `geo/boozersurface.py` selection of equations | MaskModel, MaskProps |
| `BoozRun.v`, `BoozRunProps.v` | run logic of `BoozerSurface` and of `Iotas` (boozersurface.py, surfaceobjectives.py) |
| `AdjLin.v`, `AdjModel.v`, `AdjProps.v`, `AdjThms.v`, `AdjCoils.v`, `AdjEx.v` | `forward_backward`, `boozer_surface_residual_dB`, the vector-Jacobian products of exact and least squares Boozer surfaces and the gradients of `Iotas`, `MajorRadius`, `BoozerResidual` (objectives/utilities.py, surfaceobjectives.py) |
| `QsrModel.v`, `QsrProps.v`, `QsrThms.v`, `QfmProps.v` | `NonQuasiSymmetricRatio` and `QfmResidual` (surfaceobjectives.py) |
| `NormModel.v`, `NormProps.v` | `NormalField` (normal_field.py): arrays, dofs, names, resolution |
| `FourModel`, `FourProps`, `FourVals` | SurfaceRZFourier.fourier_transform_scalar and inverse_fourier_transform_scalar |
| `RedModel`, `RedProps` | ReducedCoilSet |
| `CoilSetModel`, `CoilSetProps` | CoilSet: construction, setters, dependencies of the penalties |
| `EqModel`, `EqProps` | create_equally_spaced_curves, CoilSet.for_surface |
| `FrameModel`, `FrameProps` | frames, filaments and strain of finite build coils |
| `HelixModel`, `HelixProps` | CurveXYZFourierSymmetries, CurveHelical |
| `FieldAModel`, `FieldAProps` | ToroidalField, PoloidalField, MirrorModel |
| `DipoleModel`, `DipoleProps` | dipole fields, DipoleField, dipole_field_Bn |
| `AxisModel`, `AxisProps` | compute_on_axis_iota |
| `ReimanModel`, `ReimanProps` | the Reiman field |
| `ScalarModel`, `ScalarProps` | fields given by a scalar potential |
| `ForceModel`, `ForceProps` | self field and force objectives |
| `FintModel`, `FintProps` | `util/fourier_interpolation.py` |
| `SampleModel`, `SampleProps` | `field/sampling.py` |


Not modelled: everything else; in particular the external codes (VMEC, SPEC, booz_xform, virtual casing) and their input/output,
the jax-traced functions except where stated, guiding-centre integration, plotting, Eigen's and scipy's solvers.

## Testing the theorems
`seeded/LOG.jsonl` records mutations of the models (a wrong boundary, a missed case, a swapped argument, a dropped update), the
theorems that then fail and, where all still proved, the theorems that were tightened.
