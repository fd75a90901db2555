# Formal model of MAST in Rocq: design

The code under study is a C++ finite-element / optimisation toolkit built on libMesh, PETSc, SLEPc and
Eigen.  Nothing of it is executed here.  Each model file is a set of Gallina functions transcribed by
hand from `/repo`, with a comment naming the file and lines.

## Layout

For each area `X` of the code:

* `theories/X_Model.v`  - the model; no proofs;
* `theories/X_Spec.v`   - a small independent specification, where the statement needs one;
* `theories/X_Proofs*.v` - lemmas;
* `theories/X_Props*.v`  - the property theorems (`C<nn>_...`), with non-vacuity `Example`s and
  `Print Assumptions`.

`theories/Base.v` has the common vocabulary: the `outcome` type (normal result or a distinct fault:
failed `libmesh_assert`, out-of-bounds access, null dereference, double free, use after free, division by zero,
`libmesh_error`, read of an uninitialised value, ...), counted loops, arrays and dense matrices with checked access,
and finite sums of reals.  `RBool.v` decides comparisons of reals, `Accum.v` has accumulation loops.

## Modelling conventions

* `Real` is modelled by the mathematical reals `R`.  Rounding, overflow, NaN are outside the model
  unless a definition says otherwise; where C++ would produce NaN or infinity by a division by zero or by a power,
  the model has a fault.
* Fixed-size integers are `nat`/`Z` unless the property is about wrap-around (element ids in `Isec`, property ids in
  `Nast`), where they are `N` with an explicit width.
* `std::vector`/Eigen vectors that are indexed with computed indices have checked
  read/write: an index outside the vector is the fault `OutOfBounds`, so a theorem that says
  "the result is `Ok ...`" includes the memory-safety claim.  Global PETSc vectors and matrices are functions of the
  dof number.
* `libmesh_assert*` is modelled as a check that faults (debug build).  Where the release build
  differs and matters, the comment of the definition says so.
* Linear solvers, eigen-solvers, optimisers, user callbacks and level-set functions are arguments
  (oracles) of the model functions.  Whatever is assumed about them is a hypothesis of the theorem.
* Loops bounded by data are structural recursion; `while` loops carry explicit fuel and the
  out-of-fuel outcome is distinct.
* Finite element data at quadrature points (weights, shape functions, gradients, normals) are data of the element models;
  theorems quantify over all of them.
* Derivatives are Coquelicot's `is_derive`: a sensitivity theorem takes, as hypotheses, that the user's functions report
  their true derivatives, and concludes that the sensitivity the code returns is the derivative of the quantity the code
  returns.

Properties that turn out false of the faithful model get a theorem `..._refuted` with a concrete
witness, and the finding is recorded below.

## Areas of the model

| area (files `X_*.v`) | code modelled | how it is modelled | how the properties are proved | left out of the area |
|---|---|---|---|---|
| FEMOp | `numerics/fem_operator_matrix.h` | operator as column-major array of optional shape-function blocks; each product as the nested loops of the header | loop invariants to the dense matrix product (finite sums) | ownership of the stored vectors |
| Utility | `numerics/utility.h` | complex/real transforms, parallel sums over the ranks' arrays | pointwise identities, bijection of the flattening | MPI itself |
| Func | `base/function_base.h`, `parameter.h`, `constant_field_function.cpp`, `function_set_base.*`, `depends_on` of the cards | dependency graph of objects with explicit fuel; cards as name-function maps; heap with allocation status | induction on a topological rank, reachability specification, witness histories | the values of field functions |
| Disc | `base/physics_discipline_base.*` | association multimaps; histories as lists of operations | refinement to a multiset specification, induction over histories; set of constrained dofs | libMesh's projection of boundary values |
| Trans | `solver/transient_solver_base.cpp`, `first_order_newmark*`, `second_order_newmark*`, `generalized_alpha*` | global vectors as functions; update formulas; element operator as argument | field identities, induction over time steps | parallel distribution, constraints |
| Cont | `solver/continuation_solver_base.cpp`, `arclength*`, `pseudo_arclength*` | `solve` as fuelled loop over an oracle; border algebra | invariant, termination measure, finite-sum algebra | constraint rows |
| Stab | `solver/stabilized_first_order_transient_sensitivity_solver.cpp` | running averages and acceptance loop; stored solutions and linear solver are oracles | induction over steps | constraints |
| Cplx | `base/complex_assembly_base.cpp` (blocked), `solver/complex_solver_base.cpp` (block solve) | 2x2 block embedding, interleaving | pointwise identities | field-split solver, PETSc allocation |
| Flut | `aeroelasticity/time_domain_flutter_*`, `ug_flutter_solver.cpp` (sensitivity) | sweep and bisection over an eigen-solver oracle | loop invariants, list induction, witnesses | `_analyze`'s eigen solver, printing, p-k solver |
| Hist | `optimization/function_evaluation.*` (history file, line study) | text file as rows of printed tokens | induction over rows | locale, stream errors |
| Opt | `optimization/{nlopt,dot,gcmma,npsol}_optimization_interface.cpp`, gradient check | buffers with checked access; optimiser as oracle of requests | index arithmetic, loop invariants, witnesses | the optimisers (Fortran/C) |
| Filt | `level_set/filter_base.cpp` | neighbour map from node distances | convex combination lemmas, adjointness | parallel ghosting |
| Cond | `level_set/interface_dof_handler.cpp`, `material_patch.cpp` | dof partition lists, static condensation, cyclic sign changes | permutation, block elimination, induction | mesh queries |
| Isec | `level_set/level_set_intersection.cpp` | decision tree on one QUAD4 over reals, sub-element tables, root finding | case analysis over sign patterns, shoelace identities | QUAD9 node placement beyond ids |
| Refi | `level_set/sub_elem_mesh_refinement.cpp`, `sub_elem_node_map.cpp` | mesh as maps with allocation | map invariants, histories | neighbour links, processor ids |
| Stre | `elasticity/stress_output_base.*`, `ks_stress_output.cpp`, `smooth_ramp_stress_output.cpp` | stress data lists, aggregation formulas | inequalities, derivatives | the elements that compute the stresses (see Strs) |
| Nast | `mesh/nastran_io.*`, `pynastran_io.pyx` | reading loops with maps | map invariants, witnesses | materials and properties of the deck |
| Intp | `examples/base/multilinear_interpolation.cpp` | ordered table | order lemmas |  |
| Flui | `fluid/primitive_fluid_solution.cpp`, `small_disturbance_*`, `flight_condition.h`, `fluid_elem_base.cpp` (states, fluxes, Jacobians) | gas relations, dense matrices with size checks | field identities, derivatives | stabilisation matrices, shock capturing, element residuals |
| Mat | `property_cards/isotropic_material_property_card.cpp`, `orthotropic_*` | matrix as sequence of checked writes | matrix identities, positive definiteness, derivatives |  |
| Coor | `coordinates/*`, `orthotropic_element_property_card_3D.cpp` | rotations of stiffness by a basis | matrix algebra, derivatives |  |
| Sect | `property_cards/solid_1d*`, `solid_2d*`, `multilayer_*`, `element_property_card_1D/2D.cpp` | section integrals as closed formulas | integration of through-thickness polynomials, derivatives | prestress functions, caching |
| Sens | `base/nonlinear_implicit_assembly.cpp`, `assembly_base.cpp`, `nonlinear_system.cpp` (solves) | assembly over a list of elements with constraint rows | finite-sum algebra, chain rule, adjoint identity | solution functions, transient elements |
| Eig | `base/nonlinear_system.cpp` (eigen part), `eigenproblem_assembly.cpp` | condensed dofs, SLEPc as oracle | eigenpair algebra, derivatives of eigenvalues | EPS options |
| Heat | `heat_conduction/heat_conduction_elem_base.cpp` and its two assemblies | element integrals as sums over quadrature points | sum algebra, derivatives | moving level-set velocity beyond the boundary term |
| Solid | `elasticity/solid_element_3d.cpp` | strain operators, residual and Jacobian loops | energy derivative, sum algebra | incompatible modes (commented out in the main routines) |
| Geom | `mesh/geom_elem.cpp`, `elasticity/structural_element_base.cpp` | local axes, transformations, inertia | orthonormality algebra | sub-elements |
| Dof6, Beam | `elasticity/structural_element_1d.cpp`, `timoshenko_bending_operator.cpp`, `bernoulli_bending_operator.h` | strain operators and residual / Jacobian / sensitivity loops with six unknowns per node | strain-energy derivative, sum algebra, histories of derivatives | stress recovery |
| Plate | `elasticity/structural_element_2d.cpp`, `mindlin_bending_operator.cpp`, `dkt_bending_operator.h` | as Beam | as Beam; DKT operator shown equal to the textbook interpolation | moving-boundary velocity terms |
| Load | loads of `structural_element_base.cpp`, `structural_element_1d.cpp`, `structural_element_2d.cpp`, `piston_theory_boundary_condition.cpp`, `mesh/geom_elem.cpp` | nodal loads as sums over quadrature points, piston functions over R with a fault where the C++ leaves the finite numbers, load selection as loops over the multimaps | virtual work against every displacement, derivatives of the closed formulas, induction over the load lists | shifted-boundary traction |
| Rec | `calculate_stress` of `structural_element_1d.cpp` and `structural_element_2d.cpp`, `calculate_stress_boundary_velocity`, `calculate_stress_temperature_derivative` | the data list of an element, loops over quadrature and section points, operators of Beam and Plate | induction over the loops, derivatives of closed strain formulas in element axes | locations of the points; shape sensitivity (absent in the code) |
| Lse | `level_set/level_set_elem_base.cpp`, `level_set_volume_output.cpp`, `level_set_perimeter_output.cpp`, `level_set_transient_assembly.cpp`, `level_set_boundary_velocity.cpp` | quadrature loops over R with a fault at every division by zero, outputs as loops over elements and processes, the nearest-point search with its exact pass limit as fuel | smoothed step and delta by calculus, partition of unity for the balances, invariant of the search (halving along the normal) | sensitivities to non-topology parameters (assert in the code); the newer nearest-point search; element intersections (areas Isec, Refi) |
| Mff | `base/mesh_field_function.*`, `base/complex_mesh_field_function.cpp` | heap of vectors with owner's writes and releases, object state, histories of calls with exceptions caught | invariants over histories relating the state to the calls since the last clear | distribution of vectors over processes; libMesh's point search (a predicate) |
| Hom | `level_set/homogenized_density_function_base.*`, `heaviside_elem_homogenization_function.cpp`, `intersected_elem_homogenization_function.cpp` | the two maps as association lists, loops over local elements, area Lse for the fractions | induction over the loops and histories; C164 for value and derivative | point locator (a function) |
| Cpl | `elasticity/kinematic_coupling*.cpp`, `mesh/mesh_coupling_base.cpp`, `elasticity/structural_near_null_vector_space.cpp` | rows as association lists, registry and dof map as maps with release/debug builds, meshes as node tables with boundary ids, search tree as a filter by distance | algebra of the rows, induction over additions and nodes | the k-d tree, ghosting of remote nodes, Gram-Schmidt of PETSc |
| Cmp | `elasticity/compliance_output.cpp` | load vectors of elements as functions of solution and parameter, sums over elements and processes | sums exchanged, derivatives by Coquelicot | the loads themselves (area Load) |
| Vdo | `level_set/level_set_constrain_dofs.cpp`, `indicator_function_constrain_dofs.cpp` | elements with their unknowns and the verdict of the intersection per process, dof map as association list | induction over elements, sets of unknowns | the intersection (area Isec) |
| Cfe | `fluid/conservative_fluid_element_base.cpp`, `fluid/integrated_force_output.cpp`, differential operator of `fluid_elem_base.cpp` | residuals and matrices of the interior, rate, symmetry, slip and far-field sides, force outputs; quadrature points with shape functions, intrinsic time matrix and shock coefficient as arbitrary functions | sums exchanged, homogeneity of the fluxes, derivatives by Coquelicot, continuity of the characteristic splitting | viscous terms, no-slip wall, Barth matrix, shock operator |
| Ufl | `aeroelasticity/ug_flutter_solver.cpp`, `ug_flutter_root.cpp`, `pk_flutter_solver.cpp` (matrices, store and scan), `pk_flutter_root.cpp` | roots, matrices and their sensitivities, sweep, crossover points, search and critical root of the UG solver; block matrices, store of solutions and scan of the PK solver; the eigen-solver is an oracle | harmonic motions; derivatives of eigenvalue branches; crossovers as an exact set; invariants over histories of calls and insertions | printing; crossovers, search and sensitivities of the PK solver |
| Mph | `solver/multiphysics_nonlinear_solver.cpp`, `base/transient_assembly.cpp` | index sets of the nested vector for any number of processes, the three PETSc callbacks and solve() as functions of the solver's state, SNESSolve an oracle; assembly of a time step as a loop over elements and processes, time scheme as the affine map it applies | partition of the index range by counting; the callbacks preserve an invariant of the state, so products are right after any history; derivatives of the coupled equations by calculus | verify_gateaux_derivatives, options and log output of the coupled solver |
| Rom | `elasticity/structural_fluid_interaction_assembly.cpp`, `fluid_structure_assembly_elem_operations.cpp`, `fsi_generalized_aero_force_assembly.cpp` | loops over processes, elements and requested quantities with libMesh's constraint of element matrices (size may grow), the element operations' flag as state, flow solution an oracle, attachments as a small store | the constraint leaves the quadratic form on admissible modes unchanged; sums over elements; derivatives by calculus | the flow problem itself; the structural elements (their matrices are arguments) |
| Tad | `base/output_assembly_elem_operations.cpp`, `elasticity/stress_temperature_adjoint.cpp` | the sets of chosen ids, ancestors of an element as a list; the element contributions and their sum | case analysis; adjoint identity from equilibrium along the adjoint | constraints of the thermal dofs; the derivative data itself (area Rec) |
| Lap | `numerics/lapack_{dggev,dgeev,zggev,zggevx}_interface.*`, `lapack_zggev_base.h`, `solver/slepc_eigen_solver.cpp` | LAPACK and SLEPc as functions returning packed arrays and a status, unpacking and scaling as loops over the complex numbers, work sizes as arithmetic | invariant of the unpacking over the documented layout of conjugate pairs; algebra of sesquilinear products | the eigenvalue algorithms (their documented contract is the hypothesis); rounding |
| Lna | `level_set/level_set_nonlinear_implicit_assembly.cpp` | the loops over processes, elements and sub-elements with the work vectors as state, condensation of area Cond, homogenised stiffness of the void, attachments as a small store | sums over elements, derivatives by calculus, invariants of the store over histories | the element routines (their residuals are arguments); the intersection (areas Isec, Refi); parallel vectors beyond the distribution of elements |
| Lei | `level_set/level_set_eigenproblem_assembly.cpp`, element operations of `elasticity/structural_modal_eigenproblem_assembly.cpp`, eigenvalue sensitivity of a generalised Hermitian problem in `base/nonlinear_system.cpp` | loops over processes, elements and parts adding constrained element matrices; the second matrix as an argument holding what was there | bilinear forms on admissible vectors as sums over elements; derivatives by calculus | the element matrices (data); the intersection (areas Isec, Refi) |
| Sfd | `elasticity/stress_assembly.cpp`, `elasticity/level_set_stress_assembly.cpp` | loops over processes and elements writing rows of a field, comparison of points as folds, the map of sub-elements with its assertions, init/clear/destructor as a state machine | invariant of the comparison (extreme value of what was seen); fields by id; derivatives by calculus | the points the element routines produce (data); area Stre models what else is computed from them |
| Vds | `level_set/level_set_void_solution.cpp`, `interface_dof_handler.cpp` (L212-240, L381-451) | the monitor as a step of a fold over the iterates of the solver, the store of void unknowns as a partial function of ids, init/clear as a state machine over the attached monitors | induction on the iterations; linear algebra of the void block | PETSc's SNES (iterates and step lengths are data); the element operators; the inverse of a small matrix is an argument with its equation as hypothesis |
| Prs | `fluid/pressure_function.{h,cpp}`, `fluid/frequency_domain_pressure_function.cpp`, `fluid/surface_integrated_pressure_output.{h,cpp}` | setters as steps of a state machine; evaluation at a point with the states of area Flui | settings as functions of the history; derivatives by calculus | interpolation by libMesh's MeshFunction (the solution is a function of the point); how the surface load is integrated |
| Bck | `elasticity/structural_buckling_eigenproblem_assembly.cpp`, `elasticity/structural_buckling_eigenproblem_elem_operations.cpp`, sensitivity of `base/eigenproblem_assembly.cpp` and of eigenvalues in `base/nonlinear_system.cpp` | processes as folds over elements with the element object held, lost objects and load parameter as state; assertions compiled in or not | bilinear forms on admissible vectors; induction on processes and elements; calculus | the Jacobians of the terms of an element (data); the eigensolver (a mode is a hypothesis) |
| Ste | `elasticity/structural_transient_assembly.cpp`, element calculations of `elasticity/structural_nonlinear_assembly.cpp`, with the time-step formulas of `Trans` | the calls of each operation in order on the accumulated vectors and matrices; a quantity not set on the element is `None` | calculus along lines; composition with the time-step matrices of `Trans_Model` | the terms of a structural element (data with contracts); C139 shows what the linearised internal force of the code does |
| Fdf | `fluid/frequency_domain_linearized_conservative_fluid_elem.cpp` (inviscid), `aeroelasticity/frequency_function.cpp` | complex vectors and matrices as pairs of real and imaginary parts over the element of `Cfe_Model`; `a.dot(b)` conjugates its first argument, as Eigen does | phases: the real part of the product with e^(ip); calculus of the flux through a moving wall | the no-slip wall; matrices of the sensitivity |
| Njc | `base/nonlinear_implicit_assembly_elem_operations.cpp` | an element is what its calculation makes of the vector and matrix it is given; the loop over the columns carries the vector that is not cleared | mean value theorem for the quotient of differences | rounding, and with it the choice of the step |
| Lri | `level_set/level_set_reinitialization_transient_assembly.cpp` | elements and schemes of Mph with a reference solution per element; the vectors of the user are a store by address | refinement to the transient assembly of Mph with the reference held | solution functions; ghosting |
| Cft | `fluid/conservative_fluid_transient_assembly.cpp`, linearised residuals of `fluid/conservative_fluid_element_base.cpp` (inviscid) | the element of `Cfe_Model` with perturbations of the flow and of the functions of a wall | derivative of the moving wall flux by the derivatives of the primitive state; product by uniqueness of the derivative | viscous terms, no-slip walls |
| Fda | `fluid/frequency_domain_linearized_complex_assembly.cpp` | the element of `Fdf_Model`; the object is its frequency and the element at hand | steps that add the same to any vector and matrix; induction over the sides and over the calls | changes of a frequency after it was given |
| Shk | `fluid/fluid_elem_base.cpp` (`calculate_aliabadi_discontinuity_operator`) | the coefficient from the states and Jacobians of `Flui_Model` and the points of `Cfe_Model` | the form of the entropy variables is a sum of squares; uniqueness of derivatives | the inverse of the element map (an argument); floating point |

## Each property

Status, and what is proved or missing.  The full English statements are in `properties.jsonl`, the theorem names in
`MANIFEST.json`.  "Refuted" means that a theorem with suffix `_refuted` exhibits a concrete input for which the model
of the code violates the property; the positive theorem beside it (suffix `_partial`) states the condition under which
it holds.

| id | area | property | status | note |
|---|---|---|---|---|
| C01 | FEMOp | FE interpolation operator multiplies like the matrix it stands for | proved | shape vectors must hold n_dofs_per_var values: set_shape_function does not check it (finding) |
| C02 | FEMOp | FE operator transpose product is the adjoint of the product | proved |  |
| C03 | FEMOp | FE operator matrix-matrix products agree with dense products | proved | longer shape vectors spill into the next variable (finding) |
| C04 | Utility | Real block form of complex element quantities is a homomorphism | proved |  |
| C05 | Utility | Parallel sum of a dense matrix is the entrywise sum over ranks | proved | comm.sum is modelled as the rank-wise sum; the communication layer is not modelled |
| C06 | Func | depends_on decides reachability in the dependency graph | proved | for acyclic function graphs; on a cyclic graph the recursion does not end (finding) |
| C07 | Func | Constant field function differentiates consistently with its value | proved |  |
| C08 | Func | A property card depends on everything its properties depend on | partial | false for multilayer cards, whose depends_on ignores their own properties, and for a field function queried for itself |
| C09 | Disc | Load registry behaves like a multimap | proved |  |
| C10 | Disc | Clearing loads leaves no load behind | partial | false of the code: clear_loads keeps all point loads; proved for side and volume loads |
| C11 | Disc | Each subdomain has exactly one property card | proved | release build: a missing card dereferences the end iterator |
| C12 | Func | Copying a Parameter is safe | partial | false of the code: a copied Parameter shares its heap cell and frees it twice |
| C13 | Trans | Transient history vectors hold the last steps in order | proved |  |
| C14 | Trans | Second-order Newmark updates satisfy the Newmark relations | proved |  |
| C15 | Trans | First-order Newmark update satisfies its relation | proved |  |
| C16 | Trans | Transient element Jacobian is the derivative of the transient residual | proved | proved for all elements with exact partial Jacobians, linear ones included |
| C17 | Trans | Generalized-alpha coefficients are second order and unconditionally stable | proved |  |
| C18 | Cont | Continuation step size stays within its limits | partial | false of the code when the arc length starts below min_step (as initialize() leaves it with the default limits) and when exactly the desired number of iterations was used; proved otherwise |
| C19 | Cont | A failed continuation solve restores the last state and terminates | partial | restarts restore the state and the solve terminates; the last failed trial is not undone |
| C20 | Cont | Schur-factorised continuation step solves the bordered system | partial | proved for the factorisation itself and the pseudo-arclength solver; the arclength solver passes a dXdp computed with an older matrix, then the constraint equation is not satisfied |
| C21 | Cont | Arc-length search direction is a unit tangent and its constraint gradient is exact | proved |  |
| C22 | Stab | Stabilised sensitivity: averaged mass and integrated Jacobian | proved |  |
| C23 | Stab | Stabilised sensitivity: rejected steps keep the last accepted solution | partial | false of the code: after a rejection solution_sensitivity() is zero; solution_sensitivity(1) is the last accepted one after any history |
| C24 | Cplx | Block complex solve equals the complex solve | partial | proved without constrained dofs; with libMesh's constrained rows the block system is singular because the unit diagonal is also written into the imaginary blocks |
| C25 | Flut | Crossover identification brackets every damping sign change | proved | pairs whose two velocities are both at most 1e-5 in magnitude are skipped by the code and not counted; a mode unstable at the lowest velocity gets one extra entry |
| C26 | Flut | Flutter root search keeps its bracket and reports success only within tolerance | proved |  |
| C27 | Flut | find_next_root returns a converged root only | partial | false of the code: the success flag of the search is ignored; proved that the stored root is the tracked mode of the last trial and converged exactly when the search reported success |
| C28 | Flut | Critical flutter root is the lowest | partial | proved for sweeps starting from a velocity where all retained modes are stable; otherwise the search divides 0 by 0 |
| C29 | Flut | Mode tracking permutes roots | proved |  |
| C30 | Flut | Flutter speed sensitivity keeps the root on the stability boundary | proved |  |
| C31 | Flut | Eigenvalue sensitivity is unaffected by the identity blocks left in the sensitivity matrices | proved |  |
| C32 | Hist | Optimisation history file round-trips design variables | partial | Round trip proved for every history in which all calls write, up to the printed precision; refuted in general: default precision loses digits, a call without writing or a file attached later makes recorded iterations unreadable. |
| C33 | Opt | Constraint Jacobian layout is preserved by each optimiser interface | partial | Gradient copies proved for NLopt and DOT for all sizes and active sets (GCMMA receives the user's array itself); the no-out-of-bounds part fails for the NLopt tolerance argument with two or more constraints, and NLopt never receives the constraint values. |
| C34 | Opt | Optimiser evaluates the user's functions only inside the bounds | partial | Proved when the origin is within the bounds or the first iteration does not backtrack; refuted otherwise. |
| C35 | Opt | GCMMA interface stops only on the documented convergence criterion | partial | Proved once enough objectives are recorded and when backtracking ends; refuted before that (buffer of zeros) and when the backtracking loop never ends. |
| C36 | Opt | SNOPT/NPSOL exit message matches the exit code | partial | False of the code: the printed category is right exactly for INFORM 11 and 44. |
| C37 | Opt | Equality constraints stay equalities in the NPSOL interface | partial | Variables and inequality constraints proved; refuted for every equality constraint. |
| C38 | Opt | verify_gradients accepts exactly the gradients within tolerance | proved | In exact arithmetic; the callback is assumed to leave gradient buffers alone unless gradients are requested. |
| C39 | Hist | Parametric line study samples the segment between the two designs | partial | Samples proved; the reported objective is always zero. |
| C40 | Filt | Density filter preserves constants and bounds | proved | Both neighbour searches; KD-tree query taken from its contract. |
| C41 | Filt | All overloads of the filter agree | partial | Agree at design-variable dofs, and NumericVector/map everywhere; the std::vector overload multiplies other dofs by their number of neighbours. |
| C42 | Filt | Influence-domain test never misses an influenced element | proved | Nodes proved, and the level set interpolated at them; a counterexample shows interior points of large elements are not covered by the test (not part of the statement). |
| C43 | Cond | Material/void dof partition is exact | proved | For empty lists, as every caller in the library passes; lists that already hold dofs are appended to (shown separately). |
| C44 | Cond | Static condensation is equivalent to the full element system | proved | For every invertible void block; FullPivLU::solve taken from its contract, exact arithmetic. |
| C45 | Cond | Material level count around a node | partial | Counting proved for every closed sequence; patches with more than four neighbours write out of bounds, coinciding directions dereference null. |
| C46 | Isec | Level-set intersection classifies elements on the correct side | partial | Whole-element report proved as an equivalence. Pieces proved except in two situations where it is false: a side on the level set with corners of both signs, and two opposite corners on the level set with the other two of the same sign. |
| C47 | Isec | Sub-elements tile the parent element | partial | Areas proved for every mode and geometry, unless every nodal value equals the tolerance exactly: then the element is in neither list. Volumes of QUAD9 parents are taken as those of the straight-sided quadrilateral. |
| C48 | Isec | Edge intersection stays inside the edge and is exact for linear level sets | proved |  |
| C49 | Isec | Sub-element ids are unique | partial | New node ids of one element are distinct and above the mesh ids, but start at the same number for every element. Element ids need five times the largest element id to fit into 32 bits; the id wraps into the mesh ids otherwise. |
| C50 | Refi | Sub-element mesh refinement is undone by clear_mesh | proved | prepare_for_use of libMesh is an oracle that changes ids only; ids are restored when it numbers by the mesh alone. |
| C51 | Refi | Cut-edge nodes are shared consistently | partial | Sharing proved as an equivalence; the location only when all requests for the edge agree: a second request for another point of the same edge gets the node of the first. |
| C52 | Refi | Hanging-node constraint interpolates linearly | partial | Rows proved right; the ownership test is a disjunction that always holds, so dofs of other ranks are constrained. Completeness proved for one rank. |
| C53 | Stre | von Mises stress and its sensitivity | proved | Parameter and state sensitivities; exact reals. |
| C54 | Stre | p-norm stress output lies between extreme stresses | partial | Every returned value lies between the extremes; a value is returned when the weight exponent is a natural number and p>0. Refuted otherwise: a fractional weight exponent and a stress below the reference give NaN. |
| C55 | Stre | Aggregated stress sensitivities are exact derivatives | partial | All three kinds, parameter and state sensitivities, away from the non-differentiable points (limit of the exp argument, vanishing stress with exponent below one). Refuted at the all-zero stress state: NaN although the output is constant. |
| C56 | Stre | KS output is a smooth maximum | proved | Upper bound, lower bound with the weight of the critical point, and convergence as p grows. |
| C57 | Nast | Nastran property/type pairs map to distinct subdomains | partial | Full equivalence and inverse maps for the first read with 16-bit property ids; 'same pair, same subdomain' for any history. Refuted: second read restarts the numbering, property ids are narrowed to 16 bits, maps keep deleted nodes. |
| C58 | Intp | Multilinear interpolation value and derivative | partial | Values: all of it. derivative(): between the first and the last station; at and beyond them it returns the value (refuted). |
| C59 | Flui | Primitive and conservative fluid variables round-trip | partial | Round trip: all of it. Free stream: when the flow vector has no component outside the dimension of the analysis (otherwise its energy is counted but not its momentum, refuted); Mach sensitivities only for a non-zero Mach number (0/0 otherwise). |
| C60 | Disc | Constrained dof set is exact | proved | the side dof numbers of variable 0's FE type are used for every variable (finding: out of bounds for mixed orders) |
| C61 | Trans | Generalized-alpha Jacobian is the derivative of its residual | partial | false of the code in the highest-derivative solve (factor 1-alpha_m missing, previous slot blended in); proved for the time-step solve |
| C62 | Trans | Matrix-free transient product equals the Jacobian times the vector | partial | false of the generalised-alpha solver, whose perturbed data are not blended; proved for the Newmark solver |
| C63 | Trans | Attaching element operations starts a new transient run | partial | false of the code: _first_sensitivity_step is never set again |
| C64 | Stab | Stabilised sensitivity keeps a steady solution | partial | true for beta = 1, false otherwise: the right-hand side lacks -(1-beta) times the integrated Jacobian |
| C65 | Stab | Interval integral of the output sensitivity | partial | false of the code: every sub-step reads the last solution, both sensitivities coincide after an accepted call, and the clock is moved back |
| C66 | Flut | Flutter sensitivity accepts either solution sensitivity alone | partial | false of the code: dX/dp without dX/dV dereferences a null pointer |
| C67 | Flut | Critical root without mode tracking | partial | success and termination proved; the trial velocity leaves the bracket once the upper damping is below 1e-4 |
| C68 | Flut | Critical root of one flutter solution | proved |  |
| C69 | Cond | Elements marked for condensation really are cut | proved |  |
| C70 | Isec | Every level-set pattern on an element is classified | partial | False when a nodal value has exactly the magnitude of the tolerance; proved for all other values. |
| C71 | Isec | Reference coordinates of intersection nodes | proved |  |
| C72 | Isec | Sub-elements belong to the subdomain of their parent | partial | True for QUAD4; for QUAD9 the intermediate element is built without subdomain id. |
| C73 | Refi | process_mesh reports whether it changed the mesh | partial | False with a strong discontinuity: the copy of an element that touches the level set is not reported. |
| C74 | Refi | A strong discontinuity separates the two sides | partial | Proved when no node lies on the level set (within the tolerance); corners on the level set stay shared otherwise. |
| C75 | Refi | Subdomain ids after mesh refinement follow the classification | proved |  |
| C76 | Stre | Smooth-ramp stress output is a smooth excess | proved | Both bounds, any data set, p>0. |
| C77 | Stre | Topology sensitivity of a stress output is the boundary-layer derivative | proved | All three kinds; exact derivative at layer thickness zero. |
| C78 | Stre | Stress outputs do not depend on the partitioning | proved | Any permutation of the points over any ranks and elements. |
| C79 | Stre | A stress output reflects the current data and coefficients | partial | Holds for histories without set_aggregation_coefficients or zero_for_analysis between a total and the next clear; refuted for both. |
| C80 | Nast | Property table lists each property's own subdomains | partial | The map is right for every history; the printed table only in its first row. |
| C81 | Nast | SPC sets become node boundaries | partial | One boundary per SPC card (not per id), exactly its nodes, for read(filename); read(BDFModel*) adds none. |
| C82 | Nast | Zero-length bushings are given a length along their axis | partial | Holds when no component of the axis is zero; otherwise a division by zero. |
| C83 | Flui | Perturbed flow state is the derivative of the state | partial | All parts; the Mach number only for moving fluid (NaN at rest, refuted). |
| C84 | Flui | Conservative/primitive Jacobians | proved |  |
| C85 | Flui | Advection flux and its Jacobian | proved | All of it for the directions of the analysis. Besides: a direction the analysis does not have is refused, except the third one in two dimensions. |
| C86 | Flui | Sensitivity of the advection Jacobian | proved |  |
| C87 | Flui | Characteristic decomposition of the advection Jacobian | proved |  |
| C88 | Flui | Entropy variable Jacobians | proved |  |
| C89 | Flui | Diffusion flux and its matrices | partial | Flux and matrices: all of it. The sensitivity of the tensors omits the change of the variable Jacobian, so it is right only where the base state has no gradients (refuted otherwise). |
| C90 | Flui | Wall fluxes and pressure derivative | proved |  |
| C91 | Isec | Sub-element sides on the interface | proved |  |
| C92 | Mat | Material stiffness is Hooke's law | partial | Isotropic: all of it. Orthotropic: all kinds but the transverse shear, which uses the 1-2 modulus for the 1-3 and 2-3 planes (refuted when they differ). |
| C93 | Mat | Material derivatives are derivatives | partial | Every quantity of both cards but two: the derivative of the isotropic transverse shear matrix is always zero, and that of the orthotropic two dimensional stiffness never returns (size assertion in plane stress, uninitialised variables in plane strain). |
| C94 | Mat | A material card hands out what was asked for | partial | Identity, refusals and destruction: all of it. The kind: when all requests for the two dimensional stiffness agree on plane stress or plane strain; otherwise the first one wins (refuted). |
| C95 | Mat | Material dependence is complete | partial | All but the orthotropic plane strain stiffness, which depends on E33, nu23 and nu31 without registering them (refuted). |
| C96 | Mat | Heated material | partial | Bars, plane stress and solids: all of it. Plane strain: the expansion along the constrained direction is left out (refuted). |
| C97 | Coor | Turning a solid material turns its elastic and thermal law | proved |  |
| C98 | Coor | Conduction and heated stress of solid sections | partial | The oriented conductance is turned by the transpose of the orientation (refuted; right when the conductances agree or the orientation matrix is symmetric). The isotropic solid section is right, but the derivative of its thermal matrix is an error for every parameter (refuted). |
| C99 | Sect | Section constants of a bar are integrals over the rectangle | proved |  |
| C100 | Sect | Bar section matrices give stress resultants | proved |  |
| C101 | Sect | Bar inertia is the kinetic energy of the section | partial | With an offset the coupling of twist and deflection is missing and the coupling of the rotation about z has the wrong sign; the defect is given exactly. Symmetry and positivity hold always, the energy without offset. |
| C102 | Sect | Reported derivatives of bar section quantities are the derivatives | partial | All of it except the torsional constant at a square section, where it has no derivative, and the shear matrix when the caller's matrix is too small, where the code writes out of bounds. |
| C103 | Sect | Plate section matrices give stress resultants and kinetic energy | proved |  |
| C104 | Sect | Reported derivatives of plate section quantities are the derivatives | partial | All but the inertia matrix of an offset plate, whose derivative lacks the density and the offset's rotary inertia (refuted). |
| C105 | Sect | Layers are stacked without gap and their matrices add up | proved | Without layers the matrix of the caller is returned unchanged. |
| C106 | Sect | Destroying a layered section destroys each object once and only its own | partial | Refuted for two or more layers: every thickness function is deleted once per layer. With one layer it is deleted once, although the user owns it. |
| C107 | Sect | The bending model chosen is the one set, or the documented default | partial | Refuted for three-node triangles with a model set and for two-node bars of higher order with the default. |
| C108 | Sens | The assembled residual, Jacobian, outputs and sensitivities are sums over the mesh | proved |  |
| C109 | Sens | Direct and adjoint sensitivities of an output agree | proved | The override flag of a dependence object is excluded; see C112. |
| C110 | Sens | Computed output sensitivities are total derivatives | proved | The contracts of the element routines are hypotheses. For the adjoint the solution passed is the stored one; see C111. |
| C111 | Sens | Adjoint and sensitivity solves are performed at the solution passed in | partial | The direct solve is at X. The adjoint solve assembles the Jacobian at the stored solution, so it is right only if X is the stored solution (refuted otherwise). |
| C112 | Sens | Declaring which elements depend on a parameter only saves work | partial | Holds without the override flag; with it the sensitivity of the solution is dropped from the output (refuted). |
| C113 | Sens | The multi-parameter adjoint sensitivity equals the single ones | proved |  |
| C114 | Sens | The assembled Jacobian is the derivative of the assembled residual | partial | Up to the 1e-24 terms that diagonal subdomains add to dofs they share with active elements (exact remainder in the theorem; refuted without it). |
| C115 | Eig | Retrieved eigenpairs solve the assembled eigenproblem with unit norm | partial | Every retrieved pair is right. Retrieval fails for exchanged problems with a negative eigenvalue, although the pair converged (refuted). |
| C116 | Eig | Eigenvalue sensitivities are derivatives of the eigenvalues | proved | For the first sensitivity analysis after the eigenvalue analysis; see C117 for the following ones. |
| C117 | Eig | Sensitivities for several parameters can follow one eigenvalue analysis | partial | Refuted: a sensitivity analysis overwrites the matrices by which get_eigenpair and later sensitivity analyses normalise. A new eigenvalue analysis restores the state. |
| C118 | Eig | Eigenvectors respect the constraints | partial | Holds for Dirichlet dofs; hanging dofs are left at zero (refuted), and without condensation constrained dofs have eigenpairs of their own. |
| C119 | Eig | Every kind of eigenproblem and every list of indices is served | partial | Standard problems always fail and a strict subset of the eigenvalues is refused; for generalized Hermitian problems all requested indices are served in order. |
| C120 | Eig | The eigenproblem is posed on exactly the free dofs | proved |  |
| C121 | Heat | A heat conduction element returns the weak form of its loads and material | proved |  |
| C122 | Heat | Heat conduction Jacobian and sensitivity are derivatives of the residual | partial | Proved unless the parameter moves the ambient or reference temperature or the Stefan-Boltzmann constant of a radiation load: surface_radiation_residual_sensitivity ignores their derivatives (refuted by a witness). |
| C123 | Heat | Heat storage and its Jacobians | partial | Derivatives proved for a consistent capacity and for a lumped one that does not follow the temperature; refuted for a lumped temperature-dependent capacity, where the code keeps the consistent form of the derivative. |
| C124 | Heat | Heat balance, symmetry and definiteness of the heat conduction element | proved |  |
| C125 | Heat | Moving a boundary changes the heat residual by the boundary integrand | proved | Loads on the sides of the element do not take part, as in the code. |
| C126 | Solid | Internal forces of a continuum element are the gradient of its strain energy | proved | Without incompatible modes. |
| C127 | Solid | The continuum element's Jacobian is the derivative of its internal force | proved | Without incompatible modes. |
| C128 | Solid | Rigid motions of a continuum element cause no force | proved |  |
| C129 | Solid | Internal forces of a continuum element are in equilibrium | proved |  |
| C130 | Solid | Internal force sensitivity of a continuum element completes the total derivative | proved |  |
| C131 | Solid | Thermal loads of a continuum element | proved | thermal_residual_sensitivity of this element is libmesh_error. |
| C132 | Solid | Pressure on a side of a continuum element | proved |  |
| C133 | Solid | Inertia of a continuum element | partial | Proved for a uniform density and an empty vector; the density of the first quadrature point is used everywhere, and the diagonal form overwrites the vector instead of adding (both refuted by witnesses). |
| C134 | Solid | Reported stress of a continuum element | partial | The stress is C times the strain at every point; refuted for thermal loads: the thermal strain is not subtracted, so free expansion is reported as stress. |
| C135 | Geom | Local axes of beams and plates | partial | Proved for every element that gets axes, with the exact condition; refuted for beams parallel to the x axis: they keep the global axes and the y vector of their section is ignored. |
| C136 | Geom | Points and vectors change between local and global axes without loss | proved | Elements without local axes refuse the calls (C136_none). |
| C137 | Geom | Unknowns change between local and global axes without loss | proved |  |
| C138 | Geom | Inertia of beams and plates | partial | Rigid acceleration and power proved for the consistent form; the diagonal form uses the inertia of the first quadrature point (refuted for a varying density), and the base class refuses the 3x3 inertia of continuum elements in the sensitivity. |
| C139 | Geom | Linearised residual of structural elements | partial | Refuted for every element: the work vectors are six times too large and the call fails on the size check. |
| C140 | Beam | The internal force of a beam derives from its energy | partial | For Timoshenko beams the two shear stiffnesses must be equal: both shear operators use row 0, so the shear in the x-z plane is weighted with the stiffness of the x-y plane (refuted otherwise). |
| C141 | Beam | The Jacobian of a beam is the derivative of its internal force | partial | Exact with a bending model; without one, diagonal entries that are nearly zero are replaced by a small number (refuted), all others are exact. |
| C142 | Beam | Parameter sensitivity of a beam | proved |  |
| C143 | Beam | Change of the beam Jacobian along a state sensitivity | partial | Holds when the two entries of the extension-bending coupling agree; one block uses the wrong entry (refuted otherwise). |
| C144 | Beam | Initial stress and thermal stress in beams | partial | The work statement needs equal section moments: the moment about y enters with the value for z (refuted otherwise).  The matrix is the derivative unless thermal_jacobian_scaling differs from one (refuted). |
| C145 | Beam | Parameter sensitivity of initial stress and thermal stress in beams | proved | The matrix of the thermal term for an unscaled Jacobian. |
| C146 | Beam | Kinematics of beam bending | proved |  |
| C147 | Beam | Pressure on the end of a beam | proved |  |
| C148 | Plate | The internal force of a plate derives from its energy | proved | A and D symmetric, shear stiffness symmetric. DKT triangles with other positions or numberings: see C153. |
| C149 | Plate | The Jacobian of a plate is the derivative of its internal force | partial | Exact, up to a stiffness 1e-8 of the rotation about the normal that belongs to no force, for the linear strain, for membranes and at states without in-plane displacement gradients; otherwise the blocks that couple the in-plane nonlinear strain with deflection and bending are missing (refuted). |
| C150 | Plate | Parameter sensitivity of a plate | proved |  |
| C151 | Plate | Change of the plate Jacobian along a state sensitivity | partial | Exact for the linear strain, and for rows or columns without in-plane displacement when state and sensitivity have no in-plane displacement gradients; the in-plane nonlinear terms are missing (refuted otherwise). |
| C152 | Plate | Initial stress and thermal stress in plates | partial | Prestress leaves out the nonlinear strain of the in-plane displacements that the internal force has (refuted for the full strain); a thermal_jacobian_scaling other than 1 makes the matrix inconsistent (refuted). |
| C153 | Plate | Kinematics of plate bending | partial | The triangle must lie in a plane of constant z of the mesh and be numbered counterclockwise: clockwise numbering flips the sign of the deflection (a rigid rotation strains the triangle), and inclined triangles use gradients in the axes of the mesh (both refuted). |
| C154 | Load | Surface pressure on plates and beams | proved |  |
| C155 | Load | Traction and pressure on the edge of a plate | partial | The components of the traction are read in the axes of the element; a traction given in the axes of the mesh is wrong on elements with axes of their own (refuted). |
| C156 | Load | Piston theory pressure | proved |  |
| C157 | Load | Piston theory load on plates | partial | The stiffness matrix lacks the term of the flow along the second axis of the element (exact missing term proved; refuted in general, exact for flow without that component). Elements without axes of their own, edges and follower forces are refused by assertions. |
| C158 | Load | Piston theory load on beams | partial | Only slope and velocity along the second axis of the beam are used, and the direction of the flow is not: deflection along the third axis gives no load (refuted). |
| C159 | Load | Every load of an element is applied exactly once | proved |  |
| C160 | Rec | Beam stresses are those at the corners of the section | partial | The weights of the four points are not divided by four: they add up to four times the length (refuted, exact value proved). Everything else is proved. |
| C161 | Rec | Plate stresses are those at the skins | proved |  |
| C162 | Rec | Boundary velocity and temperature contributions to plate stresses | partial | A second moving side of an element is refused by an assertion (refuted); the derivative of the strain with respect to temperature is entered as zero (refuted), that of the stress is exact. |
| C163 | Lse | Volume of the level-set material | proved |  |
| C164 | Lse | Homogenised volume fraction | proved |  |
| C165 | Lse | Perimeter of the level-set material | partial | The per-element sensitivity leaves out elements the interface does not cut although their perimeter is counted (refuted; exact on cut elements, and the output's total is exact); the perimeter scales with the inverse of the slope of the level set function (refuted). |
| C166 | Lse | Level set propagation | partial | Value, balance, rate term and the Jacobian's column sums are exact; row by row the Jacobian holds velocity and stabilisation coefficients fixed (refuted), the capturing term acts on exactly moving fields (refuted) and a flat spot divides by zero (refuted). |
| C167 | Lse | Level set reinitialisation | partial | A signed distance function is kept in total only: the capturing coefficient uses \|V . grad phi\| without the source (refuted; the remaining term is exact in the partial theorem). |
| C168 | Lse | Velocity and normal of the interface | partial | A normal vector with fewer than three entries is written past its end (refuted); the rest is proved. |
| C169 | Lse | Nearest point on the interface | partial | Curved level set functions are covered by termination only; for planes the exact position is proved, and that the search may stop half way (refuted). |
| C170 | Lse | Element operations of the level set transient assembly | partial | Builds with assertions always stop in the external residuals (refuted); without assertions the parts are exact. |
| C171 | Mff | A mesh function shows the vector it was given | partial | A failed init leaves the object half initialised: a retry is refused and an evaluation dereferences a null pointer (refuted) until clear (partial). A shared vector that is destroyed is used after free (refuted). |
| C172 | Mff | Sensitivities, gradients and perturbations of a mesh function | partial | With a quadrature point solution in force, gradient, sensitivity and perturbation return that solution itself (refuted). No call sets the perturbation; perturbation_gradient checks the wrong pointer and dereferences null (refuted). |
| C173 | Mff | Complex mesh functions | proved |  |
| C174 | Hom | Heaviside homogenised density | partial | Elements of other processes cannot be evaluated (refuted); clearing the fractions keeps the old sensitivities (refuted). |
| C175 | Hom | Density from intersected elements | partial | The loops run from begin to begin, so that nothing is ever stored: no history gives a value (refuted for every mesh). |
| C176 | Cpl | Rows tying a slave node to its masters | partial | The lever arm terms of the x and z rows have the wrong sign, so that rotations are followed only if the slave is at the weighted centre of its masters (refuted otherwise; y row right). Masters with fewer than six unknowns are read out of bounds (refuted). |
| C177 | Cpl | Registry of coupling constraints | partial | Second and late additions are refused in debug builds only; in release builds a later coupling silently replaces the earlier one (refuted). When a row is refused the rows before it stay in the dof map (refuted). |
| C178 | Cpl | Search for the masters of a slave | partial | A slave without a master in the radius is clamped to zero (refuted); a node of both sets can be its own master and two calls for the same slave set collide (refuted). |
| C179 | Cpl | Rigid body modes given to the solver | partial | The rotation modes are finite rotations: distances are kept exactly, but their linear strain is not zero (refuted); it vanishes to first order in the angle. |
| C180 | Cmp | Compliance output | partial | Point loads are not counted (refuted). |
| C181 | Cmp | Derivatives of the compliance | partial | For loads that follow the solution the derivative of the load is missing; exact formula and a case off by a factor of two. |
| C182 | Vdo | Unknowns of the void switched off | partial | Each process looks at its own elements only, so that unknowns needed by material elements of another process are clamped (refuted); on one process the statement holds. With the option for nodes on the boundary, nodes exactly on it are clamped (refuted). |
| C183 | Vdo | Unknowns outside of the indicator switched off | partial | Elements wholly inside of the indicator do not keep their unknowns (refuted); same restriction to the own elements as C182. |
| C184 | Cfe | Balances of the flow element | proved | Inviscid flows. The shape functions sum up to one; the intrinsic time matrix and the shock capturing coefficient are arbitrary functions. |
| C185 | Cfe | Matrix of the interior of the flow element | partial | Exact derivative with the two terms the matrix leaves out (change of the intrinsic time matrix and of the shock capturing coefficient); exact in uniform flows; refuted in general. The matrix of the rate term with respect to the solution is left at zero. |
| C186 | Cfe | Matrix of the sides of the flow element | partial | Exact for symmetry and slip walls, also moving ones, and for far fields at the flow far away or with outflow faster than sound; refuted for supersonic inflow, where the matrix is zero. The no-slip wall is not modelled. |
| C187 | Cfe | Far field of the flow element | proved | Inviscid flows, normals of length one. |
| C188 | Cfe | Force on a boundary in a flow | partial | The force vector is not cleared between the sides of an element: with several sides on the boundary every side counts again for each later one (exact count proved, sum refuted). Inviscid part. |
| C189 | Cfe | Sensitivity of the sides of the flow element | partial | Holds for plane flows and the density; the parameter is not looked at (refuted for the Mach number), in space the energy is written into the third momentum (refuted) and on a line out of bounds. |
| C190 | Ufl | Roots of the reduced-frequency flutter equations | partial | Exact for finite eigenvalues; an infinite eigenvalue is not flagged and appears as a physical root at zero speed. |
| C191 | Ufl | Derivatives of the reduced-frequency eigenvalues | partial | Exact for the reduced frequency and for parameters of the structure; the aerodynamic matrix is taken as constant in the parameter and the sensitivity of the base solution is ignored (refuted). |
| C192 | Ufl | Crossover points of the reduced-frequency sweep | partial | Exact set of entries for every sweep; sign changes with a damping of 3/4 or more are dropped, and a sweep with a single solution reads behind the map. |
| C193 | Ufl | Critical root of the reduced-frequency solver | partial | Lowest of the roots found so far, no crossover lost, termination; not the lowest of all crossovers, true without convergence, null dereference for zero iterations, zero speed for infinite eigenvalues. |
| C194 | Ufl | Eigenproblem of the PK solver | partial | The pencil is right for matrices of twice the number of modes; the caller passes matrices of size zero, so every analysis and scan with at least one mode fails. |
| C195 | Ufl | Roots stored by the PK solver | partial | The comparison is with zero, so the first root stored at a speed is never replaced and only the highest reduced frequency counts. |
| C196 | Mph | Layout of the coupled unknowns | proved | Index sets as built in solve(), any number of processes and disciplines. |
| C197 | Mph | Coupled residual | partial | The residual is exact; the solver's own iterate is overwritten by its constrained version (refuted), unchanged only if it satisfies the constraints. |
| C198 | Mph | Coupled Jacobian | partial | Exact for directions that respect the constraints and data that do not depend on the discipline's own solution; otherwise refuted, and the product overwrites its argument. |
| C199 | Mph | Coupled solve | partial | Start, stored blocks and faults exact; the local copies stay stale and non-convergence is not reported (refuted). |
| C200 | Mph | Residual and Jacobian of a time step | proved | Element operators satisfy the stated derivative contract; time scheme as an affine map of the new unknowns. |
| C201 | Mph | Matrix-free product of a time step | partial | Equal for directions that respect the constraints and without a post assembly operation; refuted otherwise. |
| C202 | Mph | Sensitivity of a time step | proved | Element sensitivities and the contribution of earlier steps satisfy the stated derivative contract. |
| C203 | Rom | Reduced matrices of a structure | partial | Exact for modes that respect the constraints and constraints inside the elements; hanging nodes stop it and other modes are given spurious terms (refuted). |
| C204 | Rom | Sensitivity of reduced matrices | partial | With and without base solution, after any history, if inertia and loads do not depend on the base solution; refuted for loads that do. |
| C205 | Rom | Generalised aerodynamic forces | partial | Exact for the matrix itself; no modes reads out of bounds, and for a parameter only the change of the flow is differentiated (refuted). |
| C206 | Rom | Attaching the generalised force assembly | partial | Flow solver, flow assembly and flow operations are freed; the structural element operations stay attached (refuted). |
| C207 | Tad | Participation in an output | partial | Exact for at most one refinement of listed unrefined elements; a listed refined element and a twice refined one are missed (refuted). |
| C208 | Tad | Temperature adjoint of a stress output | partial | Exact if every element of the output is heated and every heated element is in the output; refuted otherwise. |
| C209 | Lap | Dense eigensolvers return eigenpairs | partial | Eigenpairs after success; a failed call unpacks before it checks and may read out of bounds, and computing without vectors leaves the old ones (refuted). |
| C210 | Lap | Scaling of eigenvectors | partial | Product one for real problems, of modulus one for complex ones; the complex left vectors are scaled without conjugation (refuted). |
| C211 | Lap | Work space of the dense eigensolvers | partial | Enough for positive sizes; too little for size zero, and zggevx passes bool where LOGICAL is expected (refuted). |
| C212 | Lap | Eigenpairs of the sparse solver | partial | Exact for Hermitian problems and for values; otherwise the imaginary vector is a null pointer or dropped (refuted). |
| C213 | Lna | Residual and Jacobian of a cut structure | partial | Sum, derivative and condensation for every mesh and distribution; the void diagonal is not part of the residual, and an indicator exactly at the threshold gives no entry (refuted). |
| C214 | Lna | Sensitivity of the residual of a cut structure | partial | Exact without homogenised elements if no sub-element without interface follows one with it; otherwise a boundary term is counted again, and homogenised elements use another sensitivity than their residual (refuted). |
| C215 | Lna | Output of a cut structure and its gradient | partial | Output for every mesh, gradient without homogenised negative sides; otherwise refuted. |
| C216 | Lna | Direct sensitivity of an output of a cut structure | partial | Exact without homogenised elements; void unknowns keep their sensitivity and a missing sensitivity is dereferenced (refuted). |
| C217 | Lna | Attaching level sets to an assembly | partial | No double free nor leak in any sequence; a new level set is used, but the velocity survives clearing and the indicator cannot be replaced (refuted). |
| C218 | Lei | Eigenproblem of a cut structure | partial | Exact if no element is cut, and independent of the distribution; a cut element is integrated whole, the void leaves rows of zeros in both matrices, and a constraint reaching out of an element stops the program (refuted). |
| C219 | Lei | Sensitivity of the eigenproblem of a cut structure | partial | The first matrix is the derivative and the second one is added to what was there; since it is not zeroed every eigenvalue sensitivity is wrong by the eigenvalue (refuted), and cut elements are treated differently from the analysis (refuted). |
| C220 | Sfd | Stress field for plots | partial | The field is proved in full; the output is cleared for every element and ends up with the data of the last one only (refuted). |
| C221 | Sfd | Sensitivity of the stress field | partial | The derivative with one evaluation point per element; with several the field returned is the stress field itself, whatever the parameter (refuted). |
| C222 | Sfd | Stress field of a cut structure | partial | Exact if every element with material participates; a subset stops the program, a missing level set is dereferenced and the destructor leaks the intersection (refuted). |
| C223 | Vds | Void unknowns during a nonlinear solve | partial | A Newton step of the void equations per iteration, exact for linear elements and full steps; a step shortened by the line search leaves a residual in the void, and detaching removes the monitors of others (refuted). |
| C224 | Prs | Pressure functions of the fluid | partial | Exact for physical states and, if a coefficient is asked for, a moving fluid; a fluid at rest divides by zero (refuted). |
| C225 | Prs | Integrated pressure output | partial | The value in full, the derivatives away from a zero load; the default direction is normalised although zero and a new load keeps the sensitivities of the old one (refuted). |
| C226 | Bck | Matrices of the buckling eigenproblem | partial | Exact without assertions; the element object is never released, so that the second element of a process fails an assertion or leaks, the load parameter is left at the second value, and a constraint reaching out of an element writes past the solution (refuted). |
| C227 | Bck | Critical load from an eigenvalue | partial | Both formulations; without linearisation a second state that is itself critical has no eigenvalue, and the value -1 divides by zero (refuted). |
| C228 | Bck | Sensitivity of buckling eigenvalues | partial | The value computed and its error: the derivative of the second matrix is missing, and the load parameter is left at the second state (refuted). |
| C229 | Ste | Matrix of a time step of a structural element | partial | The matrices are exact for every scheme; the rate Jacobian of the loads is filed with the inertial vector though the loads are in the other one (refuted). |
| C230 | Ste | Equations of motion and equilibrium of a structural element | partial | All but prestress, which neither statics nor dynamics counts (refuted). |
| C231 | Ste | Sensitivity and matrix-free product of a structural element in time | partial | Exact for the second order, the product only without damping; for the first order both read an acceleration that is not set, and the sensitivity counts an inertial force that the residual does not have (refuted). |
| C232 | Fdf | Harmonic small motions of a flow | proved |  |
| C233 | Fdf | Flow along an oscillating wall | partial | Right for walls that move in phase and normals that the steady motion does not turn; Eigen's dot conjugates its first argument, so an imaginary displacement enters with the wrong sign (refuted); the general error is given by C233_error. Known weakness: the statements take the harmonic turn of the normal from the model's own helper wall_dn, so a program that drops that turn is not caught. |
| C234 | Fdf | Sensitivity of harmonic small motions of a flow | partial | Exact for a scale of time that does not depend on the parameter; missed are that dependence, the turned normal of a wall given by its velocity, and, at walls, the dependence of the amplitude (refuted). |
| C235 | Njc | Comparison of matrices | partial | The difference is taken relative to the first value, so the order matters (refuted). |
| C236 | Njc | Check of element matrices by finite differences | partial | Nothing is raised for residuals whose derivative varies by at most ten per unit; the fixed step reports right matrices of steeper ones, an element that adds to its vector is reported, and the result of the comparison is not passed on (refuted). |
| C237 | Lri | Reinitialization of a level set | partial | The reference is kept by address: writing the vector afterwards changes the equations, and the operation after the assembly is not called (refuted). |
| C238 | Cft | Linearised sides of a flow | partial | For far fields at whose points the flow is the flow far away or leaves faster than sound (hypothesis settled of C186). |
| C239 | Cft | Time step of a flow | partial | The product is the derivative about uniform flows at rest in time; elsewhere the frozen stabilisation makes it differ (refuted).  Sensitivity for the density in the plane; other parameters get the same value (refuted). |
| C240 | Fda | Element of the harmonic analysis of a flow | partial | Slope and linear solve where the base motion turns the normal of no wall (refuted otherwise); derivative at a fixed scale of time, and where there are slip walls at a fixed amplitude (see C234 for what fails). |
| C241 | Shk | Shock capturing of a flow | partial | Without the pressure switch; with it the computation always stops at an assertion (C241_switch_refuted). The inverse of the element map is an argument. |

## Findings: where the code violates the property

Proved in the model (the id names the property with the `_refuted` theorem), unless marked (read).

* **C01, C03** shape-function sizes are not checked against the operator.
* **C06** `depends_on` does not terminate on cyclic function graphs.  **C08** multilayer cards ignore their own properties.
* **C10** `clear_loads` keeps point loads.  **C12** copying a `Parameter` frees its value twice.
* **C18, C19** continuation: an arc length below the default `min_step` is accepted from `initialize`; the step may stay below
  `min_step`; reaching exactly the desired iterations shrinks the step; the last failed trial is not restored; convergence
  exactly at the iteration limit is repeated; `min_step = 0` can loop for ever.  **C20** `dXdp` comes from a stale matrix.
* **C23, C64, C65** stabilised sensitivity: a rejected solution is zeroed; for beta other than 1 the right-hand side misses a
  term; `evaluate_q` reads the last solution, without interpolation, and moves the clock back.
* **C24** complex block solve: a constrained dof pair is left undetermined.  (read) the field-split solve never writes
  the solution vectors.
* **C27, C28, C66, C67** flutter: `find_next_root` reports success after a failed bisection; null dereference for
  `max_iters = 0`; an unstable start gives a degenerate bracket; sensitivity with `dXdp` but without `dXdV`
  dereferences null; the trial velocity leaves the bracket.  **C29** an empty root list asserts.
* **C32** history file: the default precision loses digits; some rows are unreadable.  **C33** NLopt: constraint values are never
  written, the tolerance array is read out of bounds.  **C34, C35** GCMMA: design leaves its bounds when backtracking at
  the first iteration, early stop, endless backtracking, modulo by zero.  **C36, C37** NPSOL: wrong exit category,
  equality constraints get lower bound -1e20.  **C39** line study reports objective zero; zero divisions give 0/0.
  (read) DOT evaluates and outputs after `INFO == 0`.
* **C41** filter: the vector overload scales values of non design variables by the neighbour count; the map overload changes the
  caller's map.  **C42** the influence test only looks at the nodes of the element.
* **C43** `partition_local_elem_rows` appends to non-empty lists.  **C45** material patch: more than four neighbours write out of
  bounds; coinciding angles dereference null.
* **C46, C47, C49, C70, C72** intersection: `COLINEAR_EDGE` with mixed signs, `OPPOSITE_NODES` with equal signs, all values
  equal to the tolerance, id wrap-around and id collisions, a value exactly at the tolerance, subdomain 0 of QUAD9
  sub-elements.
* **C51, C52, C73, C74** refinement: the second point on an edge keeps the first location; `||` in the ownership test; return value
  of `process_mesh`; corners on the level set are constrained to zero.
* **C54, C55, C79** stress outputs: NaN for non-integral exponents below the reference stress, NaN sensitivity at zero stress, stale
  totals.
* **C80, C81, C82** Nastran: second file collides, boundaries per card instead of per id, zero-length bushing divides by zero.
* **C58** interpolation derivative outside the table returns the value.
* **C59, C83, C85, C89** fluid: out-of-plane flow counts energy but not momentum; Mach sensitivities at Mach 0; `k = 0`; third
  direction in 2D not refused; diffusion sensitivity misses a term.
* **C61, C62, C63** generalized alpha: Jacobian of the highest derivative and initial acceleration, matrix-free product, sensitivity step flag.
  **C60** constrained dofs use the FE type of variable 0.
* **C92-C98** materials: isotropic transverse shear derivative is zero, orthotropic 2D derivative mixed up, `plane_stress` cached,
  `depends_on` misses properties, orthotropic transverse shear uses `G12`, plane-strain thermal expansion, transposed
  rotation of the conductance, 3D thermal expansion derivative refused.
* **C101, C102, C104, C106, C107** sections: sign of an inertia coupling, torsion constant kink, unsized matrix write, missing
  derivative terms, layers freed once per layer, bending model choices ignored.
* **C111, C112, C114** assembly: adjoint assembled at the system's solution instead of the argument; `override_flag` drops the solution
  sensitivity; diagonal subdomains add to shared dofs.
* **C115, C117, C118, C119** eigen: negative eigenvalues of an exchanged problem assert; the sensitivity solve overwrites the matrices
  (a second call is wrong); hanging dofs; index subsets refused; standard problems dereference null.
* **C122, C123, C125** heat: radiation sensitivity ignores three parameters; lumped capacity Jacobian; topology sensitivity ignores
  side loads.
* **C133, C134** solid: inertia evaluated at the first point, lumped mass overwrites the residual; `calculate_stress` ignores the thermal strain.
* **C135, C138, C139** beams along x ignore the section's orientation; diagonal inertia of the first point; the linearised residual
  always fails its size check.
* **C140, C141, C143, C144** beam: shear stiffness of one plane used for both, regularised diagonal without bending, a typo in
  `jac_dot`, moment of one axis used for both, `thermal_jacobian_scaling`.
* **C155** `structural_element_2d.cpp` surface_traction_residual: components of the traction are taken in the axes of the element.
* **C157** `structural_element_2d.cpp` piston_theory_residual: the stiffness term of the flow along the second local axis is put in the
  second row of a product whose left operator has only a first row, so it vanishes; plates without local axes hit the assertion of
  `T_matrix()`.
* **C158** `structural_element_1d.cpp` piston_theory_residual: the normal has a component along the second axis only and the flow
  direction is not used; deflection along the third axis gives no load.
* **C160** `structural_element_1d.cpp` calculate_stress: four points per quadrature point, each with the full `JxW`; volume averages
  of beams are four times those of plates.
* **C162** `structural_element_2d.cpp` calculate_stress_boundary_velocity: the second side of an element fails the assertion on the
  number of the point; calculate_stress_temperature_derivative leaves the derivative of the strain zero.
* **C149, C151, C152, C153** plate: missing Jacobian blocks for the full nonlinear strain, drilling stiffness without force,
  prestress without the in-plane nonlinear strain, DKT triangles numbered clockwise or inclined.


## Trusted base
* **C165** `level_set_perimeter_output.cpp` / `level_set_elem_base.cpp`: output_sensitivity_for_elem skips elements the interface does not
  cut while output_for_elem counts them; the integrand lacks the factor |grad phi|, so the perimeter depends on the slope of the function.
* **C166** `level_set_elem_base.cpp` internal_residual: velocity, upwind parameter and capturing coefficient are held fixed in the Jacobian;
  a point with zero gradient divides by zero (NaN); the capturing coefficient uses V . grad phi instead of the strong residual, so exactly
  moving fields leave a residual.
* **C167** the same for reinitialisation: a signed distance function is not a steady state. A normal-speed function must be set although
  it is not used.
* **C168** `level_set_boundary_velocity.cpp` normal_at_point / normal_derivative_at_point write three entries whatever the size of the vector;
  normal_derivative_at_point ignores its parameter argument.
* **C169** search_nearest_interface_point_old stops when the objective does not change: for phi = x from x = 2 it returns x = 1/2; its
  Hessian update is commented out.
* **C170** `level_set_elem_base.cpp` side/volume_external_residual are `libmesh_assert(false)` and elem_calculations calls them: no
  level-set system can be assembled in a build with assertions.
* **C171** `mesh_field_function.cpp` init sets `_function` before the vector is examined: after an exception a retry is refused and an
  evaluation dereferences the null `_func`.
* **C172** `mesh_field_function.cpp`: with `_use_qp_sol` gradient, derivative, derivative_gradient and perturbation return the solution;
  nothing ever sets `_perturbed_function`, and perturbation_gradient asserts `_function` instead of it.
* **C174** `homogenized_density_function_base.h` clear_element_volume_fractions keeps the sensitivities of the old level set function;
  only local elements are stored.
* **C175** `intersected_elem_homogenization_function.cpp`: both loops end at `local_elements_begin()`; the sensitivity would store the
  fraction itself.
* **C176** `kinematic_coupling_constraint.cpp`: the lever arm entries of the x and z translation rows have the sign of the other
  rotation sense; only the y row follows a rotation of the masters. A master with fewer than six unknowns is read out of bounds.
* **C177** in release builds a second coupling of a slave replaces the first one and an addition after initialisation is lost; a refused
  row leaves the rows before it in the dof map.
* **C178** a slave node without any master in the radius gets a row without entries: it is clamped to zero.
* **C179** the rotation modes are finite rotations, not their linearisation.
* **C180, C181** `compliance_output.cpp` leaves out point loads, and its derivative leaves out the dependence of the loads on the solution.
* **C182, C183** the constraints look at the elements of the own process only; unknowns on a partition border can be clamped although
  material of the other process needs them. `indicator_function_constrain_dofs.cpp` does not keep the unknowns of uncut elements inside.
* **C185** the matrix of the interior residual freezes the intrinsic time matrix (`tau_sens` is set to zero) and the shock capturing
  coefficient; the matrix of the rate term with respect to the solution is never filled.
* **C186** the far-field matrix has only the outgoing half; for supersonic inflow it is zero although the residual depends on the flow inside.
* **C188** `integrated_force_output.cpp` does not clear the force between sides: sides are counted repeatedly.
* **C189** `far_field_surface_residual_sensitivity` ignores the parameter, differentiates by the density, and has the layout of plane flows
  built in (out of bounds on a line, wrong entry in space).
* **C190** `UGFlutterRoot::init` leaves a root with zero denominator (infinite eigenvalue) at speed, damping and frequency zero without
  setting `if_nonphysical_root`; at reduced frequency zero it is taken as a divergence root at zero speed (C193).
* **C191** `_initialize_matrix_sensitivity_for_param` ignores `dXdp` and takes the aerodynamic matrix as independent of the parameter.
* **C192** `_identify_crossover_points` of the UG solver drops sign changes where a damping is 3/4 or more, has no way to set
  `_include_highest_kr_unstable`, and reads behind the map when the sweep has one solution.
* **C193** `find_critical_root` of the UG solver takes the lowest key, which for an open crossover is the speed at one end; the root of another
  crossover can be lower. Success is reported without convergence; zero iterations dereference a null pointer.
* **C194** `PKFlutterSolver::_analyze` passes default-constructed matrices, and `_initialize_matrices` writes blocks into them without resizing;
  its stiffness argument is never written.
* **C195** `_insert_new_solution` compares with `|kr| - kr` of the old root, zero for a non-negative reduced frequency, so nothing is ever replaced.
* **C197, C198** the residual callback of `multiphysics_nonlinear_solver.cpp` constrains SNES's own iterate in place, and the block
  product constrains the Krylov vector in place: later blocks of the same product see another vector than earlier ones, and the nested
  matrix is singular on constrained unknowns.
* **C198** the diagonal blocks do not contain the part of the derivative that goes through a discipline's own data.
* **C199** `solve()` of the coupled solver ignores how SNESSolve ended, and leaves `current_local_solution` of every discipline stale.
* **C201** `linearized_jacobian_solution_product` does not call the post assembly operation that `residual_and_jacobian` calls.
* **C203** `assemble_reduced_order_quantity` projects the constrained element matrix, whose size grows when a constraint refers to another
  element: with hanging nodes the Eigen product of different sizes stops it. For modes that move constrained unknowns every element adds
  the one that libMesh puts on the diagonal.
* **C204** the state derivative of the stiffness of follower loads is missing in the sensitivity.
* **C205** `assemble_generalized_aerodynamic_force_matrix` reads the first mode before checking that there is one, and ignores the
  explicit dependence of the force on the parameter.
* **C206** `clear_discipline_and_system` of the generalised force assembly sets `_elem_ops` to null before it clears it, so the element
  operations stay attached and cannot be used again; calling it twice dereferences null.
* **C207** `if_evaluate_for_element` looks up only the direct parent: a listed refined element and a twice refined one are not found.
* **C208** `output_derivative_for_elem` of the temperature adjoint leaves out heated elements that are not in the stress output and stops
  on elements of the output without thermal load.
* **C209** the LAPACK interfaces unpack the conjugate pairs before they look at the status, and keep the eigenvectors of an earlier call
  if called without asking for vectors.
* **C210** `LAPACK_ZGGEV_Base::scale_eigenvectors_to_identity_innerproduct` divides the left vectors by the product itself instead of its
  conjugate: the product becomes one only if it was real.
* **C211** `lwork` is zero for an empty problem (LAPACK wants at least one), and `lapack_zggevx_interface.cpp` passes an array of `bool` for
  LAPACK's LOGICAL work array.
* **C212** `SlepcEigenSolver::get_eigenpair` dereferences a null vector for a non-Hermitian problem, and drops the imaginary part.
* **C213** `LevelSetNonlinearImplicitAssembly::residual_and_jacobian`: an indicator exactly at the tolerance puts no entry on the diagonal; the small
  stiffness of void elements is in the Jacobian only.
* **C214** `sensitivity_assemble` does not reset the second work vector between sub-elements, and a sub-element without interface leaves it
  untouched: the boundary term (or the residual, for homogenised elements) is added again. Without level set it dereferences null.
* **C215** `calculate_output_derivative` does not condense the negative side, and void elements excluded by the indicator are counted.
* **C216** `calculate_output_direct_sensitivity` accepts a null sensitivity of the solution and then localises it; the void unknowns of a
  homogenised element keep their old sensitivity.
* **C217** `clear_level_set_function` keeps the velocity of the old level set; `set_indicator_function` can be called once only.
* **C218** `LevelSetEigenproblemAssembly::eigenproblem_assemble` integrates every element that holds some material whole (the loop over sub-elements is
  commented out), leaves rows of zeros in both matrices for unknowns of the void, and constrains the second element matrix with the list of
  unknowns the first call has already extended: a constraint reaching outside the element is a size mismatch. The last is also so in
  `EigenproblemAssembly::eigenproblem_assemble` (L167-168), which area Eig does not model.
* **C219** `eigenproblem_sensitivity_assemble` of the same class zeroes `matrix_A` but not `matrix_B`; `NonlinearSystem::eigenproblem_sensitivity_solve`
  hands it the mass matrix of the analysis, so that every eigenvalue sensitivity is too small by exactly the eigenvalue. It integrates the
  parts of cut elements, which the analysis does not; with a base solution a topology parameter stops at `libmesh_assert(false)`.
* **C220** `StressAssembly::update_stress_strain_data` clears the output before every element and not after the last: the output then holds the last
  element of each process, and totals asked from it afterwards are of that element.
* **C221** `get_max_stress_strain_values` looks at the parameter only if there is one evaluation point; otherwise
  `update_stress_strain_sensitivity_data` writes the stresses themselves as their sensitivity.
* **C222** `LevelSetStressAssembly::update_stress_strain_data` does not skip elements outside the subset of the output and then asserts on the number of
  sub-elements; its destructor does not free the intersection made by `init`.
* **C223** The monitor of `LevelSetVoidSolution` moves the void unknowns for the whole update given by `SNESGetSolutionUpdate`, while the iterate moves by the
  step length of the line search: a shortened step leaves a residual in the void. `clear` calls `SNESMonitorCancel`, which removes every
  monitor of the solver and not only its own.
* **C224** `PressureFunction` divides by the dynamic pressure when a coefficient is asked for, also if the Mach number is zero.
* **C225** `SurfaceIntegratedPressureOutput` tests `norm() >= 0.` for the direction (always true) and then divides by it, its default being zero; `set_load`
  keeps the sensitivities of the old load, and replacing them asserts.
* **C226** `StructuralBucklingEigenproblemAssembly::eigenproblem_assemble` never calls `clear_elem`: `set_elem_data` asserts at the second element of a process (or
  the object leaks), and again in the next analysis. The second solution is read with the list of unknowns already extended by the
  constraints, into a vector of the old size. The load parameter is left at the second value, on processes with elements only.
* **C227** `critical_point_estimate_from_eigenproblem` divides by `1+v` unchecked; with `use_linearized_form` false a critical second state has an infinite eigenvalue.
* **C228** `StructuralBucklingEigenproblemElemOperations::elem_sensitivity_calculations` leaves the second matrix zero, so that the inherited sensitivity of an
  eigenvalue misses the derivative of the second matrix; it also uses the base solution and the load left behind.
* **C229** `StructuralTransientAssemblyElemOperations::elem_calculations` adds the rate Jacobian of side and volume loads to `f_m_jac_xdot` while their force is in `f_x`;
  harmless, as both solvers add the two rate Jacobians with the same factor (proved), and in the first order even needed.
* **C230** `prestress_residual` is called by the buckling analysis only: statics and dynamics ignore a prestress that buckling counts.
* **C231** `elem_sensitivity_calculations` and `linearized_jacobian_solution_product` are shared by both orders: with a solver of first order they multiply by an
  acceleration that was never set (an empty vector). The product leaves out damping (the call is commented out).
* **C233** `slip_wall_surface_residual` writes `Dw_i.dot(...)` and `Duvec.dot(...)` with the complex vector first; Eigen's `dot` conjugates it. A wall that moves with
  amplitude `i` is given the flux of one that moves with `-i`, and the imaginary part of the velocity along a turned normal enters with the wrong sign.
* **C234** with a reduced frequency the dependence of `b / V` on the parameter is ignored; at an oscillating wall the sensitivity reads the rotation of the normal only if a
  `displacement` is given, the residual whenever it is there, and the sensitivity of the amplitude is not used there.
* **C235** `compare` divides by its first argument: `compare(1, 1 - 1e-5, 1e-5)` passes and the same with the values exchanged does not.
* **C236** `check_element_numerical_jacobian` uses the step 1e-8 whatever the solution, does not clear `dres` between the columns, so an element that adds to its vector is
  reported at every column but the first, and discards what `compare_matrix` returns: a wrong matrix is only printed.
* **C237** `set_reference_solution` keeps a pointer: if the vector is the solution that is advanced, the reference moves with it.  `residual_and_jacobian` of the
  reinitialization does not call the post assembly operation that the class it derives from calls.
* **C239** `linearized_jacobian_solution_product` of a flow uses the frozen matrices of C185, so it is not the derivative of the residual of the step in a flow that is not
  uniform.  `elem_sensitivity_calculations` returns the sensitivity to the density of the flow far away whatever the parameter is.
* **C240** The matrix of the harmonic element is not the slope of its vector where the base motion turns the normal of a wall (see C233).
* **C241** With `_include_pressure_switch` the operator makes a vector by `RealVectorX::Zero(n1, n1)` (`fluid_elem_base.cpp` L2340),
  which Eigen refuses for a type with one column: where Eigen's assertions are on there is no pressure switch.  Beyond that line (not
  modelled) the scaling enters twice.

* Coq 8.16.1's kernel.
* The axioms `Print Assumptions` lists, all from the standard library:
  **F** `ClassicalDedekindReals.sig_forall_dec`, **N** `ClassicalDedekindReals.sig_not_dec`,
  **E** `FunctionalExtensionality.functional_extensionality_dep`, **C** `Classical_Prop.classic`.  The list per theorem is below.
  Coquelicot is used as a library of lemmas; it adds no axioms.  There are no axioms of our own.
* The hand transcription of the C++ sources into the model files.
* The data handed to the models: finite element tables (libMesh), linear and eigen solvers, optimisers, user functions.

### Not modelled

Nothing below is covered by any theorem: viscous terms and the no-slip wall of `fluid/conservative_fluid_element_base.cpp` and of
the frequency-domain element, the stabilisation matrices and the pressure switch of `fluid_elem_base.cpp`,
search and crossover points of `aeroelasticity/pk_flutter_solver.cpp` (its sensitivities are commented out in the source),
the level-set assemblies other than the nonlinear implicit, the eigenproblem and the reinitialization one, the sub-cell finite elements,
`verify_gateaux_derivatives` of the coupled solver,
`utility/*`, examples and tests other than the interpolation example, and everything in libMesh, PETSc,
SLEPc, Eigen and the optimisers.

### Assumptions of each theorem of the manifest


**none: closed under the global context** (105 theorems): `C05_parallel_sum`, `C06_cycle_diverges`, `C06_depends_on_reachability`, `C07_constant_field_value`, `C08_add_get`, `C08_card_depends_partial`, `C08_multilayer_own_property_refuted`, `C08_own_field_function_refuted`, `C09_debug_misuse`, `C09_loads_refine`, `C09_release_total`, `C09_remove_absent`, `C106_deleted_per_layer`, `C106_destroyed_once_partial`, `C106_destroyed_once_refuted`, `C107_bar_model_partial`, `C107_bar_model_refuted`, `C107_plate_model_partial`, `C107_plate_model_refuted`, `C108_local_solution`, `C10_clear_loads_partial`, `C10_clear_loads_refuted`, `C11_property_card`, `C120_condensed`, `C120_suits`, `C12_no_copy_safe_partial`, `C173_owner`, `C175_value_refuted`, `C177_all_kept`, `C177_late_refused`, `C177_late_refuted`, `C177_twice_refused`, `C177_twice_refuted`, `C178_masters_boundary`, `C178_own_master_refuted`, `C178_runs`, `C178_slaves`, `C178_two_calls_refuted`, `C178_unmatched_found`, `C196_local`, `C196_partition`, `C196_roundtrip`, `C199_solve`, `C204_missing`, `C205_empty_refuted`, `C206_again_refuted`, `C206_cycle_partial`, `C206_detach_refuted`, `C207_choose`, `C207_element_partial`, `C207_listed_refuted`, `C207_side`, `C207_sound`, `C207_twice_refuted`, `C208_not_ready`, `C211_empty_refuted`, `C211_enough_partial`, `C211_logical_refuted`, `C212_hermitian`, `C212_imaginary_refuted`, `C212_refused`, `C212_value`, `C217_indicator_refuted`, `C217_memory`, `C217_replace_partial`, `C217_velocity_refuted`, `C222_cleared`, `C222_leak_refuted`, `C222_twice`, `C223_cancel_refuted`, `C223_init_twice`, `C223_reattach`, `C225_mode`, `C228_held_refuted`, `C228_refused`, `C237_reference`, `C29_sort_permutes`, `C29_sort_total`, `C32_history_exact_partial`, `C32_history_round_trip_partial`, `C32_reopened_file_refuted`, `C32_skipped_write_refuted`, `C33_dot_gradient`, `C36_exit_category_refuted`, `C36_success_refuted`, `C51_requests_total`, `C57_old_node_faults`, `C57_second_read_refuted`, `C57_stale_nodes_refuted`, `C60_dirichlet_dofs`, `C60_dirichlet_dofs_total`, `C60_mixed_order_out_of_bounds`, `C66_null_arguments_partial`, `C66_null_arguments_refuted`, `C80_first_row_partial`, `C80_later_rows_refuted`, `C80_property_map`, `C80_rows_accumulate`, `C81_boundaries_partial`, `C81_one_per_id_refuted`, `C94_answered`, `C94_destroyed_once`, `C94_identity`, `C94_kind_partial`, `C94_refusal`

**C** (8 theorems): `C57_element_maps_partial`, `C57_element_types`, `C57_node_maps_partial`, `C57_node_round_trip`, `C57_same_subdomain`, `C57_subdomains_partial`, `C57_wide_pid_refuted`, `C81_model_object_refuted`

**F** (68 theorems): `C01_short_shape_unchecked`, `C102_bar_shear_refuted`, `C108_load_size`, `C113_multiple_parameters`, `C113_parts`, `C116_base_solution`, `C119_standard_null`, `C119_standard_refuted`, `C12_parameter_copy_dangling_refuted`, `C12_parameter_copy_refuted`, `C132_follower`, `C136_components`, `C136_none`, `C139_linearized_refuted`, `C147_follower`, `C154_refused`, `C155_follower_refused`, `C157_refused`, `C159_linearized_sides`, `C159_unknown`, `C162_refused`, `C171_clear_partial`, `C171_failed_init_refuted`, `C171_not_started`, `C171_outside`, `C171_owner`, `C171_second_init`, `C171_shared`, `C171_shared_refuted`, `C171_snapshot`, `C172_gradient`, `C172_perturbation_refuted`, `C172_quadrature`, `C172_quadrature_refuted`, `C172_retry`, `C172_sensitivity`, `C172_unknown`, `C173_cleared`, `C173_outside`, `C173_perturbation`, `C173_value`, `C199_convergence_refuted`, `C200_nothing`, `C200_post`, `C208_unheated_refuted`, `C218_hanging_refuted`, `C218_refused`, `C219_base_refuted`, `C219_unset_refuted`, `C219_velocity`, `C223_idle`, `C223_missing`, `C223_start`, `C224_reference`, `C226_data`, `C226_hanging_refuted`, `C226_leak_refuted`, `C226_second_refuted`, `C226_unset`, `C230_unasked`, `C231_first_refuted`, `C237_refused`, `C33_nlopt_gradient`, `C33_nlopt_objective_gradient`, `C37_bounds_partial`, `C41_map_grows_refuted`, `C51_requests_partial`, `diffusion_jacobian_no_heat`

**F E** (340 theorems): `C01_vector_mult`, `C01_vector_mult_same_shape`, `C02_adjoint`, `C02_vector_mult_transpose`, `C03_long_shape_spills`, `C03_matrix_products`, `C03_operator_product`, `C04_assembly_accumulates`, `C04_block_product`, `C04_matrix_round_trip`, `C04_vector_round_trip`, `C07_constant_field_derivative`, `C101_bar_inertia_positive`, `C105_layers_stack`, `C105_no_layers`, `C108_constrained_dof`, `C108_output`, `C108_output_derivative`, `C108_redistributed`, `C108_residual`, `C108_residual_sensitivity`, `C109_direct_equals_adjoint`, `C111_adjoint_at_solution_partial`, `C111_adjoint_elsewhere_refuted`, `C111_direct_at_X`, `C112_dependence`, `C112_override_refuted`, `C114_constrained_rows`, `C118_spurious`, `C121_residual_is_weak_form`, `C121_unknown_loads_refused`, `C123_storage`, `C124_heat_balance`, `C124_semidefinite`, `C124_symmetric`, `C124_uniform_temperature`, `C125_boundary_velocity`, `C125_storage_boundary_velocity`, `C126_runs`, `C127_semidefinite`, `C127_symmetric`, `C127_unused`, `C128_objective`, `C128_rigid`, `C128_small_rigid`, `C129_moment`, `C129_resultant`, `C131_free_expansion`, `C132_resultant`, `C132_work`, `C133_consistent_partial`, `C133_density_refuted`, `C133_mass_matrix`, `C133_overwrites_refuted`, `C133_total_partial`, `C134_stress_partial`, `C134_thermal_refuted`, `C137_sizes`, `C138_diagonal_refuted`, `C138_solid_sensitivity_refuted`, `C13_history`, `C13_runs`, `C140_storage_global`, `C140_storage_local`, `C141_symmetric`, `C146_cubic`, `C146_fibre`, `C146_rigid`, `C147_no_moment`, `C147_pressure`, `C147_resultant`, `C14_accepted_steps`, `C14_newmark_relations`, `C14_newmark_unique`, `C14_perturbation`, `C14_sensitivity_relations`, `C154_boundary_velocity`, `C154_frequency`, `C154_linearized`, `C154_no_moment`, `C154_resultant`, `C154_work`, `C155_edge_pressure`, `C155_mesh_axes_refuted`, `C155_resultant`, `C155_traction_mesh_axes_partial`, `C155_traction_partial`, `C159_order`, `C159_sides`, `C159_volume`, `C15_first_order_relation`, `C15_first_order_unique`, `C15_previous_step_sensitivity`, `C15_sensitivity_relation`, `C160_free_expansion`, `C160_order`, `C160_value`, `C160_weight_partial`, `C160_weight_refuted`, `C163_bounds`, `C163_complement`, `C163_distribution`, `C163_monotone`, `C163_output`, `C163_scale`, `C163_value`, `C168_level`, `C168_runs`, `C168_scale`, `C168_slowest`, `C168_unique`, `C169_foot`, `C16_first_order`, `C16_first_order_highest`, `C16_initial_acceleration`, `C16_second_order`, `C16_second_order_highest`, `C17_generalized_alpha_coefficients`, `C180_distribution`, `C180_energy_partial`, `C180_equilibrium`, `C180_linear`, `C180_point_loads_refuted`, `C180_value`, `C181_topology`, `C182_again`, `C182_material_kept`, `C182_on_boundary_refuted`, `C182_parallel_covers`, `C182_parallel_partial`, `C182_parallel_refuted`, `C182_rows`, `C183_cut_kept`, `C183_parallel_refuted`, `C183_rows`, `C183_silent`, `C183_uncut_refuted`, `C191_flow_parameter_refuted`, `C191_parameter_partial`, `C191_reduced_frequency`, `C192_again`, `C192_exactly_once`, `C192_single_solution_refuted`, `C192_sweep`, `C192_sweep_total`, `C193_converged_refuted`, `C193_lowest_refuted`, `C193_next`, `C193_search`, `C193_search_total`, `C193_terminates`, `C194_analysis_refuted`, `C194_pencil_partial`, `C194_scan_refuted`, `C194_total`, `C195_closest_refuted`, `C195_first_kept`, `C195_history_total`, `C195_merged`, `C195_scan_highest_partial`, `C198_overwrites_refuted`, `C199_local_refuted`, `C200_distribution`, `C200_residual`, `C201_product_partial`, `C203_distribution`, `C203_hanging_refuted`, `C203_inadmissible_refuted`, `C203_reduced_partial`, `C203_symmetric`, `C203_total`, `C204_load_refuted`, `C205_forces_partial`, `C205_generalised_partial`, `C205_parameter_refuted`, `C208_subset_refuted`, `C209_eigenpairs_partial`, `C209_failed`, `C209_failure_refuted`, `C209_refused`, `C209_stale_refuted`, `C209_standard_partial`, `C209_values`, `C20_bordered`, `C20_schur`, `C212_dropped_refuted`, `C213_condensed_partial`, `C213_distribution`, `C213_plain`, `C213_refused`, `C213_residual_partial`, `C213_threshold_refuted`, `C213_void_refuted`, `C214_factored`, `C214_factored_refuted`, `C214_unset_refuted`, `C214_velocity`, `C215_hidden_refuted`, `C215_output`, `C215_unset_refuted`, `C216_factored_refuted`, `C216_null_refuted`, `C216_refused`, `C218_cut_refuted`, `C218_distribution`, `C218_matrices_partial`, `C218_void_refuted`, `C218_whole`, `C21_pseudo_gradient`, `C223_damped`, `C223_damped_refuted`, `C223_full_partial`, `C223_step`, `C223_untouched`, `C226_distribution`, `C226_fresh`, `C226_matrices_partial`, `C227_affine`, `C227_complete_partial`, `C227_division_refuted`, `C227_estimate`, `C227_infinite_refuted`, `C228_value_partial`, `C229_first`, `C229_highest`, `C229_parts_refuted`, `C229_second`, `C22_averages`, `C22_first_acceptable_trial`, `C22_terminates`, `C230_balance`, `C230_prestress_refuted`, `C230_rest`, `C230_stiffness`, `C231_damping_refuted`, `C231_inertia_refuted`, `C231_product_partial`, `C231_sensitivity_partial`, `C231_undamped_partial`, `C235_bound`, `C235_compare`, `C235_matrix`, `C235_sizes`, `C235_symmetric_refuted`, `C236_adds_refuted`, `C236_prints`, `C236_steep_refuted`, `C236_unheard_refuted`, `C237_distribution`, `C237_held_refuted`, `C237_post_refuted`, `C237_residual`, `C23_previous_is_last_accepted_partial`, `C23_rejected_solution_is_zero_refuted`, `C24_block_solve_partial`, `C24_constrained_dof_refuted`, `C24_equivalent_system`, `C25_exactly_once`, `C25_sweep`, `C25_sweep_total`, `C25_total`, `C26_bracket_kept`, `C26_search`, `C26_search_total`, `C27_converged_partial`, `C27_converged_refuted`, `C27_zero_iterations_refuted`, `C28_terminates`, `C28_unstable_start_refuted`, `C29_best_match`, `C30_time_domain`, `C30_time_domain_unique`, `C31_eigenvalue_derivative`, `C31_identity_blocks`, `C31_true_derivative`, `C32_precision_refuted`, `C33_nlopt_tolerance_refuted`, `C33_nlopt_values_refuted`, `C37_equality_bounds_refuted`, `C38_central_exact_for_quadratics`, `C38_quadratic_problems`, `C38_verify_gradients`, `C39_line_study_objective_refuted`, `C39_line_study_samples`, `C43_global_partition`, `C43_partition_exact`, `C43_reused_lists_refuted`, `C44_condensation`, `C44_embedded_system`, `C44_store_round_trip`, `C45_sign_changes`, `C51_location_refuted`, `C58_between`, `C58_derivative_partial`, `C58_ends_refuted`, `C58_offset`, `C58_value`, `C61_alpha_highest_refuted`, `C61_alpha_initial_acceleration_refuted`, `C61_alpha_jacobian_partial`, `C62_alpha_product_refuted`, `C62_newmark_product_partial`, `C63_restart_sensitivity_refuted`, `C63_restart_state_partial`, `C64_steady_state_partial`, `C64_steady_state_refuted`, `C65_interval_integral_partial`, `C65_interval_integral_refuted`, `C67_march_terminates`, `C67_no_tracking_sound`, `C67_trial_inside_partial`, `C67_trial_outside_refuted`, `C67_velocities_in_range_partial`, `C68_count`, `C68_critical_root`, `C69_recovery_assertions_hold`, `C82_axis_refuted`, `C82_shift_partial`, `C92_isotropic_stiffness`, `C92_mass_and_heat`, `C92_orthotropic_shear_refuted`, `C92_orthotropic_stiffness_partial`, `C93_orthotropic_plane_refuted`, `C94_kind_refuted`, `C95_isotropic_dependence`, `C95_orthotropic_dependence_partial`, `C95_orthotropic_dependence_refuted`, `C96_heated_isotropic_partial`, `C96_heated_orthotropic_partial`, `C96_plane_strain_refuted`, `C97_turned_heated`, `C97_turned_matrix`, `C97_turned_stiffness`, `C98_conductance_partial`, `C98_conductance_refuted`, `C98_isotropic_card`, `C98_isotropic_thermal_derivative_refuted`, `flux_jacobian_direction_refused`, `flux_jacobian_third_direction_in_plane`, `pressure_coefficient`

**F C E** (6 theorems): `C182_order`, `C192_crossovers_partial`, `C192_large_damping_refuted`, `C193_critical_partial`, `C25_crossovers`, `C28_critical_lowest_partial`

**F N E** (270 theorems): `C102_bar_constants`, `C102_bar_heat`, `C102_bar_matrices`, `C102_bar_shear_partial`, `C102_bar_torsion_partial`, `C102_square_bar_refuted`, `C104_plate_inertia_partial`, `C104_plate_inertia_refuted`, `C104_plate_matrices`, `C105_place_derivative`, `C110_adjoint_is_total_derivative`, `C110_direct_is_total_derivative`, `C114_blanked_refuted`, `C114_jacobian`, `C115_available`, `C115_eigenpairs`, `C115_negative_exchange_refuted`, `C116_base_sensitivity_needed`, `C116_eigenvalue_sensitivity`, `C117_after_new_analysis_partial`, `C117_after_stiffness_parameter_refuted`, `C118_fixed_dofs_partial`, `C118_hanging_dof_refuted`, `C119_indices`, `C119_nonhermitian`, `C119_subset_refuted`, `C122_tangent_partial`, `C123_storage_tangent_partial`, `C126_energy_gradient`, `C126_virtual_work`, `C127_tangent`, `C130_sensitivity`, `C131_energy`, `C131_tangent`, `C132_sensitivity`, `C135_axes`, `C135_beam`, `C135_plate`, `C135_runs_beam`, `C135_runs_plate`, `C135_x_beam_refuted`, `C136_points`, `C136_vectors`, `C137_jacobian`, `C137_matrix`, `C137_round_trip`, `C137_vectors`, `C137_work`, `C138_mass`, `C138_power`, `C138_sensitivity`, `C138_symmetric`, `C138_total`, `C140_energy`, `C140_shear_refuted`, `C141_bar_partial`, `C141_bar_refuted`, `C141_jacobian`, `C142_jacobian`, `C142_sensitivity`, `C143_jacobian_dot_partial`, `C143_jacobian_dot_refuted`, `C144_prestress_jacobian`, `C144_prestress_partial`, `C144_prestress_refuted`, `C144_thermal_jacobian`, `C144_thermal_partial`, `C144_thermal_refuted`, `C144_thermal_scaling_refuted`, `C145_prestress`, `C145_thermal`, `C147_sensitivity`, `C148_energy`, `C149_drilling_refuted`, `C149_jacobian_partial`, `C149_jacobian_refuted`, `C149_symmetric`, `C150_jacobian`, `C150_sensitivity`, `C151_jacobian_dot_partial`, `C151_jacobian_dot_refuted`, `C152_prestress_jacobian`, `C152_prestress_partial`, `C152_prestress_refuted`, `C152_prestress_sensitivity`, `C152_thermal`, `C152_thermal_jacobian`, `C152_thermal_scaling_refuted`, `C152_thermal_sensitivity`, `C153_clockwise_refuted`, `C153_constant_curvature_partial`, `C153_fibre`, `C153_inclined_refuted`, `C153_rigid`, `C154_sensitivity`, `C155_edge_pressure_sensitivity`, `C155_traction_sensitivity`, `C156_direction`, `C156_value`, `C157_load`, `C158_deflection_refuted`, `C158_load_partial`, `C159_sensitivity`, `C160_derivative`, `C160_sensitivity`, `C161_derivative`, `C161_free_expansion`, `C161_order`, `C161_sensitivity`, `C161_value`, `C161_weight`, `C162_moving_side`, `C162_second_side`, `C162_temperature_partial`, `C162_two_sides_refuted`, `C163_refused`, `C163_sensitivity`, `C165_positive`, `C165_single_element_partial`, `C165_single_element_refuted`, `C165_steepness`, `C165_two_sides`, `C165_value`, `C166_balance`, `C166_exact_motion_refuted`, `C166_flat_refuted`, `C166_motion`, `C166_rate`, `C166_runs`, `C166_secant`, `C166_total_tangent`, `C166_value`, `C167_balance`, `C167_distance_partial`, `C167_distance_refuted`, `C167_inputs`, `C167_interface`, `C167_runs`, `C167_sign`, `C167_value`, `C168_derivative_tangential`, `C168_normal`, `C168_normal_derivative`, `C168_short_refuted`, `C169_ends`, `C169_interface_point`, `C169_interface_refuted`, `C169_plane_partial`, `C169_plane_runs`, `C170_checked_refuted`, `C170_parts_partial`, `C170_runs_partial`, `C172_is_derivative`, `C176_few_dofs_refuted`, `C176_mirrored`, `C176_ratio`, `C176_rigid_partial`, `C176_rigid_refuted`, `C176_translation`, `C176_value`, `C176_weights`, `C176_y_partial`, `C177_again`, `C177_dof_map`, `C177_half_added_refuted`, `C177_occupied`, `C177_rows`, `C178_handed_on`, `C178_masters_subdomain`, `C178_unmatched_refuted`, `C179_independent`, `C179_not_empty`, `C179_rigid`, `C179_rotation`, `C179_runs`, `C179_translation`, `C179_unknown`, `C181_dead_partial`, `C181_follower`, `C181_follower_refuted`, `C181_total_derivative`, `C188_direction`, `C190_complete`, `C190_flag`, `C190_infinite_refuted`, `C190_root_solves`, `C193_zero_speed_refuted`, `C197_argument_partial`, `C197_argument_refuted`, `C197_missing`, `C197_residual`, `C199_solution`, `C200_jacobian`, `C201_inadmissible_refuted`, `C201_post_refuted`, `C202_sensitivity`, `C204_base_partial`, `C204_rest_partial`, `C208_adjoint_partial`, `C20_arclength_partial`, `C20_arclength_stale_matrix_refuted`, `C20_pseudo_iterate`, `C210_complex_partial`, `C210_complex_refuted`, `C210_real_partial`, `C210_singular_refuted`, `C213_exact`, `C213_jacobian_partial`, `C214_sensitivity_partial`, `C214_stale_refuted`, `C215_derivative_partial`, `C215_low_refuted`, `C215_plain`, `C216_sensitivity_partial`, `C219_eigenvalue_refuted`, `C219_inconsistent_refuted`, `C219_sensitivity_partial`, `C21_arclength_constraint`, `C21_arclength_gradient`, `C21_arclength_unit`, `C21_pseudo_constraint`, `C21_pseudo_direction`, `C21_pseudo_initial_unit`, `C225_derivative_partial`, `C225_direction_refuted`, `C225_sensitivity_partial`, `C225_stale_refuted`, `C225_unknown`, `C225_value`, `C225_zero_derivative_refuted`, `C225_zero_refuted`, `C228_error`, `C237_jacobian`, `C34_evaluations_in_bounds_partial`, `C34_evaluations_in_bounds_refuted`, `C34_no_constraints_refuted`, `C35_backtracking_endless_refuted`, `C35_early_stop_refuted`, `C35_iteration_limit_partial`, `C35_relative_change_partial`, `C40_filter_constants_linear_bounds`, `C40_filter_is_cone_average`, `C41_overloads_agree_partial`, `C41_ranks_agree_partial`, `C41_vector_overload_refuted`, `C42_influence_interpolated`, `C42_influence_nodes`, `C42_large_element_refuted`, `C45_boundary_node`, `C45_equal_angles_refuted`, `C45_five_neighbours_refuted`, `C45_material_levels_partial`, `C45_patch_partial`, `C46_colinear_refuted`, `C46_opposite_nodes_refuted`, `C47_all_tied_refuted`, `C48_exact_if_affine`, `C48_strictly_inside`, `C49_wraps_refuted`, `C52_not_owned_refuted`, `C69_marked_elements_are_cut`, `C70_mode_found_partial`, `C70_tie_refuted`, `C72_quad9_refuted`, `C73_copy_refuted`, `C74_corner_refuted`, `C97_polar`, `free_stream_sens_mach_partial`, `free_stream_sens_mach_refuted`, `free_stream_sens_rho`

**F N C E** (246 theorems): `C100_bar_heated`, `C100_bar_resultants`, `C100_bar_shear`, `C100_bar_work`, `C101_bar_kinetic_defect`, `C101_bar_kinetic_partial`, `C101_bar_kinetic_refuted`, `C103_plate_heated`, `C103_plate_kinetic`, `C103_plate_resultants`, `C103_plate_shear_and_heat`, `C105_bar_stack`, `C105_stack_kinetic`, `C105_stack_resultants`, `C117_second_call_refuted`, `C122_radiation_refuted`, `C123_lumped_refuted`, `C156_mixed`, `C156_parameter`, `C156_partials`, `C156_subsonic`, `C157_damping`, `C157_sensitivity`, `C157_stiffness_aligned_partial`, `C157_stiffness_partial`, `C157_stiffness_refuted`, `C158_damping`, `C158_sensitivity`, `C158_stiffness`, `C162_temperature_refuted`, `C163_sensitivity_scale`, `C163_sensitivity_sign`, `C164_bounds`, `C164_complement`, `C164_monotone`, `C164_refused`, `C164_scale`, `C164_sensitivity`, `C164_value`, `C165_output`, `C165_rate`, `C165_region_refuted`, `C165_sensitivity`, `C166_tangent_refuted`, `C174_again`, `C174_derivative`, `C174_remote_refuted`, `C174_runs`, `C174_stale_refuted`, `C174_value`, `C176_closer`, `C179_first_order_partial`, `C179_linear_refuted`, `C184_balance`, `C184_interior`, `C184_runs`, `C184_storage`, `C184_walls`, `C185_derivative`, `C185_frozen_refuted`, `C185_linearized`, `C185_rate`, `C185_rate_frozen`, `C185_uniform_partial`, `C186_derivative_partial`, `C186_inflow_refuted`, `C186_runs`, `C187_consistent`, `C187_free_stream`, `C187_inflow`, `C187_outflow`, `C188_gradient`, `C188_many`, `C188_one_partial`, `C188_runs`, `C188_sensitivity`, `C188_two_refuted`, `C189_density_partial`, `C189_line`, `C189_mach_refuted`, `C189_space_refuted`, `C189_walls`, `C18_below_min_step_refuted`, `C18_desired_count_shrinks_refuted`, `C18_run_limits_partial`, `C18_step_limits_partial`, `C198_jacobian_partial`, `C198_own_refuted`, `C19_converged_at_limit_repeated`, `C19_final_failure_refuted`, `C19_restarts_partial`, `C19_zero_min_step_diverges`, `C220_distribution`, `C220_field`, `C220_kept`, `C220_output_refuted`, `C220_refused`, `C221_single_partial`, `C221_values_refuted`, `C221_wrong_refuted`, `C222_distribution`, `C222_field_partial`, `C222_subset_refuted`, `C222_unset_refuted`, `C224_complex_partial`, `C224_perturbation_partial`, `C224_still_refuted`, `C224_unset`, `C224_value_partial`, `C228_wrong_refuted`, `C232_harmonic`, `C232_interior`, `C232_reduced`, `C232_refused`, `C232_runs`, `C232_sides`, `C233_conjugate_refuted`, `C233_error`, `C233_matrix_partial`, `C233_refused`, `C233_side`, `C233_turned_refuted`, `C233_wall_partial`, `C234_amplitude_refuted`, `C234_factor_refuted`, `C234_interior_partial`, `C234_null`, `C234_refused`, `C234_rotation_refuted`, `C234_sides`, `C234_wall_partial`, `C236_right_partial`, `C236_wrong`, `C238_refused`, `C238_sides`, `C238_still`, `C239_asked`, `C239_balance`, `C239_density_partial`, `C239_derivative_partial`, `C239_frozen_refuted`, `C239_mach_refuted`, `C239_product`, `C239_rate`, `C240_affine_partial`, `C240_asked`, `C240_derivative_partial`, `C240_every`, `C240_frequency_partial`, `C240_keeps`, `C240_parts`, `C240_refused`, `C240_sensitivity_parts`, `C240_session`, `C240_solved_partial`, `C240_turned_refuted`, `C240_unforced_partial`, `C241_consistent`, `C241_dissipates`, `C241_measured`, `C241_refused`, `C241_runs`, `C241_scales`, `C241_switch_refuted`, `C241_uniform`, `C241_value`, `C30_ug_damping`, `C30_ug_velocity`, `C46_centroid`, `C46_pieces_partial`, `C46_touched_node`, `C46_touched_side`, `C46_whole_element`, `C47_areas_add_up_partial`, `C47_fraction_partial`, `C47_pieces_nonnegative`, `C48_nodes_made`, `C49_ids_unique_partial`, `C49_node_ids`, `C49_node_ids_refuted`, `C50_process_total`, `C50_restored`, `C50_round_trip_quad4`, `C51_children`, `C52_affine_fields`, `C52_one_rank_partial`, `C52_rows`, `C53_homogeneous`, `C53_hydrostatic`, `C53_sensitivity`, `C53_sensitivity_zero`, `C53_von_mises`, `C53_zero`, `C54_between_partial`, `C54_nan_refuted`, `C54_total_partial`, `C55_parameter_sensitivity_partial`, `C55_state_sensitivity_partial`, `C55_zero_stress_refuted`, `C56_converges`, `C56_ks`, `C71_reference_coordinates`, `C72_subdomain_partial`, `C73_return_value_partial`, `C74_separated_partial`, `C75_subdomain_ids`, `C76_ramp`, `C77_topology_sensitivity`, `C78_maximum`, `C78_output_distribution`, `C78_sensitivity_distribution`, `C79_current_partial`, `C79_points_once`, `C79_stale_refuted`, `C79_zeroed_refuted`, `C91_interface_sides`, `C93_isotropic_derivative_partial`, `C93_isotropic_shear_refuted`, `C93_orthotropic_derivative_partial`, `C97_derivative`, `C97_polar_derivative`, `C98_conductance_derivative`, `C99_section_constants`, `C99_torsional_constant`, `diffusion_flux`, `diffusion_jacobian_chain`, `diffusion_tensor_sensitivity_partial`, `diffusion_tensor_sensitivity_refuted`, `eigenvectors`, `entropy_jacobian_is_derivative`, `entropy_jacobians`, `flux_is_euler`, `flux_jacobian_is_derivative`, `free_stream_state_partial`, `free_stream_state_refuted`, `jacobian_sensitivity_conservative`, `jacobian_sensitivity_primitive`, `moving_wall_jacobian`, `perturbation_is_derivative_partial`, `perturbation_is_derivative_refuted`, `pressure_derivative`, `state_round_trip`, `state_round_trip'`, `variable_jacobians_derivative`, `variable_jacobians_derivative'`, `variable_jacobians_inverse`
