# Design: a Rocq model of jax-am

The source in `/repo` is read as text only; nothing was executed. Every
definition in a `*Model.v` file cites the file and lines it mirrors and states
its simplifications.

## 1. Layout

`rocq/theories/` (all files listed in `rocq/_CoqProject`):

| kind | contents |
|---|---|
| `Prelude.v`, `Sums.v` … | Python/numpy vocabulary (exceptions as values, C-order arrays, slices, index normalisation), finite real sums |
| `<X>Model.v` | executable/shallow functional model of one source area, no proofs |
| `<X>Spec.v` | small independent vocabulary used by the theorem statements |
| `<X>Proofs.v` | lemmas |
| `<X>Props.v` | only `Theorem … exact lemma.` + `Print Assumptions` + a non-vacuity `Example` per theorem |

## 2. Modelling decisions

* **Numbers.** Floating point is idealised: numeric code is modelled over the
  Stdlib reals `R` (exact arithmetic). Rounding, overflow and NaN production by
  arithmetic are not modelled, except where a NaN/exception test in the code
  is itself the subject (solver exit tests): there the observable "is finite"
  is an explicit input. Index arithmetic is modelled on `nat`/`Z` and is exact.
* **Arrays.** A numpy array of known shape is either a list in C order or a
  function of its indices with an explicit shape; JAX gather semantics
  (negative indices wrap, too large indices clamp) are modelled where the code
  relies on raw offsets.
* **External calls** (linear solvers, autodiff, basix tables, KD-tree, user
  callbacks such as location functions and tensor maps) are universally
  quantified arguments. Where a theorem needs a contract for one of them
  (exact linear solve, derivative supplied by autodiff, partition of unity of
  the shape functions), the contract is a visible hypothesis of the theorem.
* **Exceptions** are values (`Ok`/`Err`).
* **Loops** are folds, structural recursion or fuelled recursion with a
  distinguished out-of-fuel result.

## 3. Plan per property

| id | model | proof idea |
|---|---|---|
| C01 | `MeshModel` box_mesh as list program (linspace, meshgrid, slices, stack, reshape) | C-order decode lemma, per-corner computation |
| C02 | same, 2-D | same |
| C03 | same | inverse index map; telescoping volume sum |
| C04 | `LatticeModel` to_id/to_id_xyz/shape_wrapper | div/mod |
| C05 | D3Q19 tables over Z and Q/R | finite computation lifted by `forallb_forall` (domain is genuinely 19 directions) |
| C06 | `LbmModel` equilibrium_f/h | ring identities over all reals |
| C07 | collide_f with forcing | field identities |
| C08 | collide_h | same |
| C09 | update_f on the whole grid | involution (x,q) -> (x+e_q, rev q) on a finite sum |
| C10 | main loop skeleton with arbitrary kernels | algebra of the correction, invariant over steps |
| C11 | re-initialisation steps | case analysis, induction over steps |
| C12 | re-initialisation steps | true before `adhoc_step`, refuted after it with a concrete phase map |
| C13 | same | case analysis |
| C14 | melted update | induction over steps |
| C15 | compute_T | piecewise linear analysis; refutation with the shipped parameters |
| C16 | read_path with linspace/arange | list induction |
| C17 | output counters | arithmetic on quotients |
| C18 | BFS as written (queue, visited flags, fuel) | graph invariant, soundness + completeness |
| C19 | compute_edges_in_order | index decode |
| C20 | compute_aspect_ratios_and_vols | sum over partition of C18 |
| C21 | ini_cond, process_neper_mesh orientation part | list lookup |
| C22 | state_rhs neighbours + integrators | summation by parts, induction |
| C23 | rk4/explicit_euler over R | ring identities |
| C24 | generate_new_mesh | induction over layers |
| C25 | coupled_integrator clock + interpolate_T | clock invariant; refuted with schedule witness |
| C26 | convert_temperature | index decode |
| C27 | mesh3d tables | index decode |
| C28 | poisson.laplace on mesh3d tables | face pairing sum |
| C29 | ghost_cell | field |
| C30 | div/get_face_vels | telescoping |
| C31 | get_moving_box_boundary | round-half-even bounds |
| C32 | time_integration skeleton | frame, running max |
| C33 | newton_update/compute_linearized_residual | affine identity with autodiff contract |
| C34 | compute_residual | sum via C28 |
| C35 | solver_nonlinear loop | induction on fuel |
| C36 | flag comparison `'True' == True` | refuted |
| C37 | gradient | interior exactness proved; dependence on BCs refuted |
| C38 | get_face_vel_component as straight-line program with local names | refuted on axis 2 |
| C39 | gamma update | induction; convex combination |
| C40 | split_and_compute_cell | firstn/skipn chunk lemma |
| C41 | residual/newton assembly | scatter-add sums |
| C42 | laplace kernel | sum exchange |
| C43 | get_shape_grads (dim 2, 3) | inverse matrix identity |
| C44 | apply_bc_vec etc. | list update algebra |
| C45 | solver_row_elimination linear branch | from C44 with exact-solve contract |
| C46 | solver loop with finite/NaN norms | nonlinear proved, linear refuted |
| C47 | Lagrange augmented system | algebra; PETSc path refuted |
| C48 | periodic pairing | list induction |
| C49 | face selection | membership characterisation; "is boundary face" refuted |
| C50 | re_order tables | finite tables, lifted |
| C51 | cylinder renumbering | nth of app |
| C52 | implicit vjp/jvp | bilinear identities |
| C53 | loads | partition of unity |
| C54 | dynamic_relax_solve as straight-line program | refuted; calC clamp proved |
| C55 | mmasub | min/max reasoning |
| C56 | subsolv loops with arbitrary directions | step-length invariant |
| C57 | optimize loop | invariant from C55+C56 |
| C58 | mmasub coefficients | field |
| C59 | filter | sums |
| C60-C62 | constitutive laws | ring/nra on matrices |
| C63 | face hash map | invariant relating table and multiplicities |
| C64 | get_active_mesh | rank/select lemmas |
| C65 | sparsejac | colouring sum lemma |
| C66 | to_data_frame | refuted |
| C67 | phase update | induction |
| C68-C69 | `LbmAuxModel` path length, unit conversion | arithmetic, field |
| C70-C71 | update_h, force and heat sources | sum over links, case analysis |
| C72-C73 | `PfModel` one explicit step, right-hand side | convexity bound, derivative of a quartic energy |
| C74-C75 | `GrainModel`, write_sols | refuted with two layers; argmax |
| C76-C80 | `CfdModel` driver | list length, compatibility sum, M-matrix argument, frame, fixed point |
| C81-C82 | `GammaModel` and its example | telescoping; refuted for diagonal tracks |
| C83-C86 | `FemModel` residual, face scales, `SolverModel` adjoint | sum exchange, cofactor identity, witness |
| C87-C90 | `MmaModel` Newton system, loops, filter | block elimination, induction on fuel, witness |
| C91-C96 | `BasisModel` with basix as a record and its contract as a hypothesis | interpolation, polynomial exactness, affine change of variables |
| C97-C101 | `MatModel` on `FemModel` | bilinear forms, projection, Cauchy-Schwarz |
| C102-C103, C107-C108 | demo materials | case analysis, spectral calculus; the derivative rule by Hermite interpolation at the eigenvalues and a bound for their change |
| C104-C106 | topology optimisation materials | monotone powers; plane stress formula refuted for plane strain |
| C109-C110 | `ActModel` thin wall growth | invariant of the face table, heat balance |
| C111-C119 | `CrysModel` crystal plasticity | see the comments of `CrysProps.v` |
| C120 | `RveModel` on `FemModel`, `MeshModel`, `BasisModel` | opposite nodes by index arithmetic; telescoping sum over the cells (discrete divergence theorem) |
| C121 | `RveModel` on `SolverModel` | multipliers do no work on admissible rates; chain rule along paths |
| C122 | compute_moduli | union of cubes; refuted for ratio > 1/2 |
| C123 | maps_nn with the network as an argument | derivative of a function of F^T F |
| C124-C127 | rve.py, trainer.py, deploy.py | induction on fuel, permutations, witnesses |
| C128, C129 | `FemModel`, `BasisModel`, `MeshModel` | faces of the outer layer by index arithmetic; exact rule on the bilinear face functions; telescoping sums; virtual work with an indicator field |
| C130 | `RveModel` | patch test on faces and cells; chain rule along the family of solutions |
| C131-C137 | `FormModel` finite-strain plasticity | closed form of the return map; induction on the history; setoid rewriting of 3x3 products; mean value theorem on a two-parameter family for the missing potential |
| C138-C148 | `TopModel` topology optimisation drivers | p-norm bounds and induction on the calls; virtual work for both forms; implicit differentiation of the eigenpair; induction on load steps; shifts of the residual commute with the boundary rows |
| C149-C152 | `FemModel`, `SolverModel`, `MatModel` on box meshes | Gram matrix of the multilinear gradient is a sum of squares; zero energy spreads from node to node (Poisson) or from layer to layer (elasticity); an injective linear map of R^n is invertible; Ritz identity |
| C153-C157 | `InfModel` source inference | the residual is linear in solution and sources together, so solutions combine; the implicit rule against that matrix; a matrix with a zero row has a kernel; the trilinear mass form is a sum of squares; induction on the call sequence |
| C158-C163 | `InvModel` inverse example | the stress is linear in the modulus, so the residual is linear in modulus and loads together; a translation changes no gradient; the implicit rule against the derivative of the constraint in the parameters; at rest the stiffness is linear elasticity, definite on the held block; the resultant of the nodal forces |
| C165-C168 | `RlxModel` dynamic relaxation | leapfrog energy with the damping term as its only change; Gershgorin bound of the form by the absolute row sums; two steps of small change force small residuals, so only finitely many pairs of steps are large |
| C169-C170 | manufactured solutions on boxes | per cell, the interpolant of a cubic has a gradient whose product with the gradient of a trilinear test function integrates by parts exactly up to odd moments that cancel with the error of the two-point rule in the load; sides telescope between cells; errors cell by cell from the Gauss points |
| C171-C172 | maximum principle on boxes | the element matrix of a cube is a sum of squares of differences of corners that are not joined by an edge; test with the part above the bound; for other shapes the row of the middle node of eight cells, whose entry for the neighbour along the longest edge is positive |
| C173-C177 | `HeatModel` thermal time steps | node coordinates against the tolerance, faces of the layers by index arithmetic; the element force is affine in the temperature with a definite form (mass term), so the system is regular exactly when no row is empty; testing with functions of the height gives a three-term recurrence for the layer means whose ratios are negative; testing with the distance to 300 gives the contraction |
| C178-C180 | `FemModel`, `BasisModel`, `SolverModel` on meshes of any Lagrange element | the stiffness matrix of each of the seven reference cells has a rational elimination certificate, so a gradient that vanishes wherever the rule has weight makes a cell constant; the indicator of the nodes linked to a node, and a motion that is rigid on every cell, are in the kernel; constant gradients of linear simplices; a skew matrix with two independent null vectors is zero |
| C181-C184 | `SaddleModel` (applications/fem/periodic_bc/example.py) with `SolverModel`, `FemModel`, `RveModel` | saddle point systems: the augmented matrix as a bilinear form; a linear system has a solution or a combination of its rows proves that it has none; the form is definite on changes that keep the constraints, so the certificate of a consistent system is zero; rings of pairs and held pairs reach no value different from 0 |
| C185-C189 | `CfdModel` (jax_am/cfd/cfd_am.py: velocity_eqn.update, solver_linear) | the pressure correction axis by axis: summation by parts for the closed divergence and the central gradient, compact Laplacian plus a fourth difference; either a linear system of the mesh has a solution or a combination of its rows proves that it has none; the prediction is coercive, the pressure operator has only constants in its kernel; bicgstab is a function that solves every solvable system (an instance exists by choice) |
| C190-C192 | `RobModel` (applications/fem/cauchy_bc/example.py: force, conditions, flux law), `FemModel` | residual tested with a field = work of the stress plus work of the fluxes minus the loads; monotone fluxes give energy 0 to the difference of two solutions; for affine fluxes the matrix is the sum of the energy form and the exchange form; the fan of three triangles has one free node, whose equation is quadratic with two roots. The mesh of the example is any mesh of TRI3 cells |
| C193-C198 | `CylModel` (jax_am/lbm/experiments/cylinder.py) | np.roll is a bijection of the ring, so the drift keeps every sum over one direction; moments of the equilibrium by computation; the reversed columns negate both velocities; the step commutes with the reflection y -> Ny - y; a cell without mass outside the cylinder ends the run (nan) |
| C199-C201 | `NumModel` (jax_am/fem/experiments/numba_assembly.py) | the nested loops append to three lists; the lists are read as one list of triplets; an element matrix entry is the force of a unit displacement, and derivatives are unique, so the loops agree with jax.jacfwd; bilinearity of the work gives the energy |
| C202-C204 | `CfdModel` (get_vel_bc_fn of jax_am/cfd/cfd_am.py) | ghost cells realise the conditions; np.pad with 'symmetric' repeats the end values, so the central differences of a row telescope to the difference of its ends, and the first and the last cell see half of a uniform gradient |
| C205-C207 | `CurModel` (applications/fem/design/curve.py: Elasticity, objective, constraint), `FemModel` | the stress is the modulus times a fixed positive symmetric form; equilibria minimise the energy among fields with the same boundary values, so energies are ordered like moduli; proportional moduli scale the residual. theta is a row of one number; the mesh is any mesh with nonnegative weights |
| C208-C211 | `StyModel` (applications/fem/aesthetic: modules.py, models.py, tree_utils.py, image_utils.py, loss of style_loss.py) | the layers are a list; running a list with more layers runs the old list first, so the targets stored by the loop are features of the list before them; only the first layer looks at is_training; tree_reduce of an empty tree is an error |

## 4. What is modelled

| source | model | not modelled |
|---|---|---|
| jax_am/common.py | `MeshModel` (box_mesh, rectangle_mesh), `SjacModel` (to_data_frame) | json/yaml input and output, walltime decorator, vtu files (only the column set of a data frame row) |
| jax_am/lbm/core.py, utils.py | `LbmModel`, `LbmAuxModel`, `MeshModel` | vtk output, jit, experiments/dam_break.py |
| jax_am/lbm/experiments/cylinder.py | `CylModel` | plots; the random numbers are an argument |
| jax_am/fem/experiments/numba_assembly.py | `NumModel` | stress, to_dof_ind, construct_phi_grad, assemble, compute_residual; the tables and boundary selections are those of the core. The module imports jax_am.fem.jax_fem, which is no longer there, and passes the boundary data to FEM by position where FEM now expects vec and dim; the class is modelled as meant, with the data of an existing FEM object |
| jax_am/phase_field | `PfModel`, `GrainModel` | Neper calls, file parsing, inverse pole figure colours, plotting, Gaussian random fields |
| jax_am/cfd/cfd_am.py, gamma.py | `CfdMeshModel`, `CfdModel`, `GammaModel` | cg/bicgstab/gmres inside jax.scipy (an argument), vtk output, clipping of outputs, the experiments directory |
| applications/fem/design/curve.py | `CurModel` | rectangle mesh and isclose selections (arguments), the initial pattern, vtk output, the MMA loop (see `MmaModel`) |
| applications/fem/aesthetic | `StyModel` | convolutions, poolings and activations (arguments), reading the h5 file, numpy broadcasting of arrays of different shapes (an error in the model), resizing between meshes, smooth_loss (returns 0), the design scripts |
| jax_am/fem/core.py | `FemModel` | jit; numpy errors for an empty Cauchy list or a singular Jacobian |
| jax_am/fem/basis.py, generate_mesh.py | `BasisModel`, `FemModel` | basix tables (an argument with a contract), gmsh, meshio |
| jax_am/fem/solver.py, autodiff_utils.py | `SolverModel` | PETSc and jax.scipy internals (arguments), preconditioners as numbers, logging |
| jax_am/fem/mma.py | `MmaModel` | k-d tree (an argument), numpy.linalg.solve (an argument), printing |
| jax_am/fem/models.py | `MatModel` | jax.grad (an argument or a derivative hypothesis) |
| jax_am/fem/experiments/sparsejac.py | `SjacModel` | networkx colouring (an argument), has_aux, dtype checks |
| demos/fem/{thermal_mechanical, phase_field_fracture, topology_optimization, hyperelasticity, plasticity} | `MatModel`, `HeatModel` (location functions, fluxes and set_params of thermal_mechanical) | drivers' file output |
| applications/fem/thermal | `ActModel` | crude output of vtu files |
| applications/fem/top_opt | `MatModel` (fem_model.py), `TopModel` (L_shape, multi_material, eigen, plasticity) | neural parts, freecad.py and box.py drivers, files; SLEPc (its pairs are an argument) |
| applications/fem/crystal_plasticity | `CrysModel` | Neper input, csv input |
| applications/fem/forming | `FormModel` | the solver call inside the time loop, the cell mean of the stress, vtk output, deletion of old files |
| applications/fem/multi_scale | `RveModel` | network training and jax optimisers (the network is an argument), random samples (an argument), files, plots |
| applications/fem/full_field_infer | `InfModel` | random choice of the observed nodes (an argument), L-BFGS-B (its calls are an argument), files, plots, printing |
| demos/fem/inverse | `InvModel` | mesh files, printing; the forward solve is ad_wrapper of `SolverModel` and its Newton iteration may fail, so the difference quotient is stated for a forward map that returns the translated solution |
| applications/fem/buckling/dr.py, jax_am/fem/solver.py (dynamic_relax_solve) | `RlxModel` | dolfin assembly (arguments), printing, timing, saving and restoring of boundary values; the buckling drivers |
| applications/fem/convergence_rate/example.py | `ManSpec` (problem data over `FemModel`, `MatModel`) | HEX8 in place of TET4/TET10; meshio, plotting, the least-squares fit; the exponential term |
| applications/phase_field/coupled, applications/cfd/gamma | `PfModel`/`GrainModel`, `GammaModel` | file output |

## 5. Observations that are recorded but not turned into theorems

* The PETSc adjoint solve uses `minres`, which presumes a symmetric matrix; the row-eliminated
  transpose is not symmetric in general. The linear solver is an argument in the model.
* `HEX20` uses Gauss order 2, which basix turns into 8 points; the comment in `basis.py` calls it
  full integration.
* `thin_wall.py` leaves the name `problem` unbound when the first step with the laser on gives birth
  to no element, and keeps the old problem and time step in later such steps.

* `multi_scale/trainer.py` reads its data from the directory `09052022` while `rve.py` writes to
  `11012022`; `rve.py`, `trainer.py` and `deploy.py` use the names `aug_solve`, `show_train_curve` and
  `crt_file_path`, which are not defined.

## 6. Trusted base

* Coq 8.16.1 kernel. No plugin, no `native_compute`, no switched-off check.
* Axioms of the standard library only, as printed by the `Print Assumptions` command that follows each
  theorem. The table AXIOMS.md lists them per theorem; over all theorems they are
  - `ClassicalDedekindReals.sig_forall_dec`, `ClassicalDedekindReals.sig_not_dec`,
    `FunctionalExtensionality.functional_extensionality_dep` (the real numbers of the library),
  - `Classical_Prop.classic` where real analysis lemmas of the library use it,
  - `ClassicalEpsilon.constructive_indefinite_description`, only to build a `jax.jacrev` or `jax.grad` that
    meets its contract (a witness in refutations and cases).
* The reading of the Python source that the model comments document, including the idealisations of
  section 2.
* Contracts of external code that appear as hypotheses of single theorems.
