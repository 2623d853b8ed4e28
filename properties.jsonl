{"id": "C01", "title": "box_mesh is a valid structured hexahedral mesh", "statement": "box_mesh(Nx,Ny,Nz,Lx,Ly,Lz) returns (Nx+1)(Ny+1)(Nz+1) points and Nx*Ny*Nz cells; every cell lists 8 pairwise different existing point numbers; the cell at position i*Ny*Nz+j*Nz+k is the axis-aligned brick [i*Lx/Nx,(i+1)*Lx/Nx]x[j*Ly/Ny,..]x[k*Lz/Nz,..] with its corners in VTK hexahedron order (bottom face counter-clockwise, then top face).", "quantifier": "for all positive Nx, Ny, Nz and all domain lengths, for every cell and every corner", "why_tests_cant": "A test checks a few sizes; the index arithmetic must be right for every size and every cell.", "anchors": ["jax_am/common.py:box_mesh"]}
{"id": "C02", "title": "rectangle_mesh is a valid structured quadrilateral mesh", "statement": "rectangle_mesh(Nx,Ny,Lx,Ly) returns (Nx+1)(Ny+1) points and Nx*Ny cells; each cell lists 4 different existing point numbers that are the corners of its rectangle in counter-clockwise order.", "quantifier": "for all positive Nx, Ny and all domain lengths, for every cell", "why_tests_cant": "Only finitely many sizes can be tested.", "anchors": ["jax_am/common.py:rectangle_mesh"]}
{"id": "C03", "title": "box_mesh is conforming and covers the box", "statement": "Every point of box_mesh belongs to some cell; two cells that touch in the grid share exactly the point numbers of their common corners (no duplicated points), and the signed volumes of the cells are positive for positive lengths and add up to Lx*Ly*Lz.", "quantifier": "for all positive sizes and positive lengths, for every pair of cells", "why_tests_cant": "Conformity is a statement about all pairs of cells of all mesh sizes.", "anchors": ["jax_am/common.py:box_mesh"]}
{"id": "C04", "title": "Lattice numbering is a bijection and vmapped kernels land on their own cell", "statement": "Converting a lattice id to (x,y,z) and back gives the same id, converting coordinates inside the domain to an id and back gives the same coordinates, ids are in range; a per-lattice kernel run through the vmap/reshape wrapper stores the value computed for cell (x,y,z) at position [x,y,z].", "quantifier": "for all domain sizes and all ids / coordinates in range", "why_tests_cant": "Round trips must hold for every size and index.", "anchors": ["jax_am/lbm/utils.py:to_id", "jax_am/lbm/utils.py:to_id_xyz", "jax_am/lbm/utils.py:shape_wrapper"]}
{"id": "C05", "title": "The D3Q19 velocity set is consistent", "statement": "The reverse table is an involution mapping every velocity to its negative; the weights are positive, direction-symmetric and sum to 1; their velocity moments of order 1 to 5 are those of an isotropic lattice with squared sound speed 1/3.", "quantifier": "for all 19 directions and all axes", "why_tests_cant": "An exact statement on rational weights; floating point tests only see rounding.", "anchors": ["jax_am/lbm/core.py:simulation (vels, rev, weights)"]}
{"id": "C06", "title": "Equilibrium distributions carry the prescribed moments", "statement": "The flow equilibrium of (rho,u) has density exactly rho, momentum exactly rho*u and momentum flux rho*(I/3 + u u^T); the thermal equilibrium of (enthalpy, T, u) sums exactly to the enthalpy and its first moment is cp*T*u.", "quantifier": "for all densities, velocities, enthalpies and temperatures", "why_tests_cant": "Real-valued inputs, unbounded domain.", "anchors": ["jax_am/lbm/core.py:equilibrium_f", "jax_am/lbm/core.py:equilibrium_h"]}
{"id": "C07", "title": "Collision conserves mass and adds exactly the force impulse", "statement": "For a liquid or interface cell the collision step keeps the cell density; when the cell is not solid its momentum grows by exactly the force (unit time step), for every relaxation time; for gas and wall cells the result is zero.", "quantifier": "for all distributions, forces, relaxation parameters and phases", "why_tests_cant": "All real inputs; also an error in one of 19 coefficients can cancel in a sampled test.", "anchors": ["jax_am/lbm/core.py:collide_f", "jax_am/lbm/core.py:f_forcing", "jax_am/lbm/core.py:compute_u"]}
{"id": "C08", "title": "Thermal collision is an exact energy balance", "statement": "For a liquid or interface cell the summed enthalpy distribution after collision is the summed distribution before plus the supplied source per density, for every relaxation time; gas and wall cells give zero.", "quantifier": "for all distributions, temperatures, velocities and sources", "why_tests_cant": "All real inputs.", "anchors": ["jax_am/lbm/core.py:collide_h", "jax_am/lbm/core.py:equilibrium_h", "jax_am/lbm/core.py:h_forcing"]}
{"id": "C09", "title": "Streaming with free-surface mass exchange conserves total mass", "statement": "For a domain enclosed by wall cells in which no liquid cell touches a gas cell, the streaming step leaves the total mass (density of liquid cells plus stored mass of interface cells) unchanged.", "quantifier": "for all domain sizes, all phase maps meeting the condition, all distributions and fill levels", "why_tests_cant": "A global sum over all cells for any geometry.", "anchors": ["jax_am/lbm/core.py:update_f", "jax_am/lbm/core.py:compute_total_mass"]}
{"id": "C10", "title": "Each time step ends with exactly the initial total mass", "statement": "After the correction at the end of a time step the total mass equals the total mass of the initial state, provided at least one interface cell exists; without interface cells the code cannot restore it.", "quantifier": "for all histories of any length, whatever the physics kernels returned", "why_tests_cant": "The drift must be corrected after every possible step of every run.", "anchors": ["jax_am/lbm/core.py:simulation (main loop)", "jax_am/lbm/core.py:compute_total_mass", "jax_am/lbm/core.py:refresh_for_output"]}
{"id": "C11", "title": "Walls stay walls; gas and wall cells carry no state", "statement": "In every reachable state the set of wall cells is the initial one, and after every step gas and wall cells hold zero distributions, zero enthalpy and zero mass.", "quantifier": "for all initial states and all numbers of steps", "why_tests_cant": "An invariant over unbounded histories.", "anchors": ["jax_am/lbm/core.py:reini_lg_to_liquid", "jax_am/lbm/core.py:reini_gas_to_lg", "jax_am/lbm/core.py:reini_lg_to_gas", "jax_am/lbm/core.py:reini_liquid_to_lg", "jax_am/lbm/core.py:adhoc_step", "jax_am/lbm/core.py:refresh_for_output"]}
{"id": "C12", "title": "Liquid never touches gas at the end of a step", "statement": "After the interface re-initialisation of a time step no liquid cell has a gas cell among its 18 lattice neighbours.", "quantifier": "for all phase maps and masses", "why_tests_cant": "Only some local patterns break it; a sampled test would not find them.", "anchors": ["jax_am/lbm/core.py:reini_liquid_to_lg", "jax_am/lbm/core.py:adhoc_step"]}
{"id": "C13", "title": "Phase changes follow the fill-level rules only", "statement": "A cell changes phase in one step only as allowed: interface to liquid when its mass exceeds (1+theta) times density or it has no gas around and some liquid around; interface to gas when its mass is below -theta times density or it has no liquid around; gas to interface only beside liquid; liquid to interface only beside gas.", "quantifier": "for all states and cells", "why_tests_cant": "Exhaustive over real masses and all neighbourhoods.", "anchors": ["jax_am/lbm/core.py:reini_*", "jax_am/lbm/core.py:adhoc_step"]}
{"id": "C14", "title": "The melt history is monotone and exact", "statement": "The recorded melted flag of a cell is 1 exactly when the cell temperature exceeded the solidus in some completed step; once 1 it stays 1.", "quantifier": "for all runs and all cells", "why_tests_cant": "Statement about every history.", "anchors": ["jax_am/lbm/core.py:simulation (melted)"]}
{"id": "C15", "title": "Temperature recovery from enthalpy is monotone and continuous for consistent parameters", "statement": "When enthalpy_s = cp*T_solidus, T_liquidus is reached at enthalpy_l and the slopes are positive, the recovered temperature is a continuous strictly increasing function of enthalpy with T = T_solidus at enthalpy_s and T_liquidus at enthalpy_l; with inconsistent parameters (as shipped for inconel) it jumps.", "quantifier": "for all enthalpies and all consistent parameter sets", "why_tests_cant": "Real-valued, and the defect is at a single point.", "anchors": ["jax_am/lbm/core.py:compute_T"]}
{"id": "C16", "title": "Laser path sampling follows the way-points", "statement": "read_path returns time, x, y and power-switch lists of equal length; samples come segment by segment; every sample of a segment lies on the straight line between its two way-points at equal spacing, starting at the first and ending at the second when it has two or more samples; sample times start at the arrival time of the segment and advance by the time step; the switch value is the one given for the segment. A path with fewer than two way-points is rejected.", "quantifier": "for all way-point lists, switches, positive speeds and positive time steps", "why_tests_cant": "Unbounded lists of real way-points.", "anchors": ["jax_am/lbm/core.py:read_path"]}
{"id": "C17", "title": "Every output interval produces its own file", "statement": "The LBM, CFD and phase-field drivers write exactly the steps that are multiples of the output interval, and different steps get different file numbers, so nothing is overwritten and numbers are consecutive.", "quantifier": "for all step counts and intervals", "why_tests_cant": "Unbounded run lengths.", "anchors": ["jax_am/lbm/core.py:simulation", "jax_am/lbm/core.py:output_result", "jax_am/cfd/cfd_am.py:AM_3d", "jax_am/phase_field/allen_cahn.py:PFSolver.write_sols"]}
{"id": "C18", "title": "Grain segmentation is exactly the connected components", "statement": "The breadth-first grain search returns groups of solid cells such that every solid cell is in exactly one group, no liquid cell is in any, and two solid cells are in the same group iff they are joined by a path of face-neighbouring solid cells of the same orientation.", "quantifier": "for all grids, melt flags and orientation maps", "why_tests_cant": "Graph connectivity on arbitrary maps.", "anchors": ["jax_am/phase_field/utils.py:BFS"]}
{"id": "C19", "title": "Grid adjacency lists are exactly the face neighbours", "statement": "compute_edges_in_order yields for cell n the cells at unit distance along one axis inside the grid, each once; the relation is symmetric.", "quantifier": "for all grid sizes", "why_tests_cant": "All sizes and all boundary positions.", "anchors": ["jax_am/phase_field/utils.py:compute_edges_in_order"]}
{"id": "C20", "title": "Grain volumes add up", "statement": "The volumes reported for all grains add up to the solid volume: number of solid cells times cell volume, and there is one volume and one aspect ratio per grain.", "quantifier": "for all segmentations", "why_tests_cant": "Sum over arbitrary segmentations.", "anchors": ["jax_am/phase_field/utils.py:compute_aspect_ratios_and_vols"]}
{"id": "C21", "title": "Initial phase-field state is one-hot at the assigned orientation", "statement": "The initial order parameters of a cell are 1 for the orientation of its grain and 0 for all others; cells of the same grain share the orientation.", "quantifier": "for all grain maps and orientation assignments", "why_tests_cant": "All maps.", "anchors": ["jax_am/phase_field/allen_cahn.py:PFSolver.ini_cond", "jax_am/phase_field/utils.py:process_neper_mesh"]}
{"id": "C22", "title": "Phase-field diffusion is conservative and no orientation appears from nothing", "statement": "The discrete Laplacian with the zero-flux boundary sums to zero and vanishes on uniform fields; an order parameter that is zero everywhere stays zero at all later steps.", "quantifier": "for all grids, fields, temperatures and numbers of steps", "why_tests_cant": "Global sums and unbounded histories.", "anchors": ["jax_am/phase_field/allen_cahn.py:phase_field", "jax_am/phase_field/allen_cahn.py:explicit_euler", "jax_am/phase_field/allen_cahn.py:rk4"]}
{"id": "C23", "title": "Time integrators have their stated order", "statement": "explicit_euler and rk4 return the new time, reproduce exactly the Taylor polynomial of degree 1 (Euler) and 4 (rk4) on the linear test equation and integrate time-only right-hand sides exactly up to degree 0 and 3.", "quantifier": "for all steps, states and coefficients", "why_tests_cant": "Order conditions are polynomial identities, a test only sees numbers.", "anchors": ["jax_am/phase_field/allen_cahn.py:rk4", "jax_am/phase_field/allen_cahn.py:explicit_euler"]}
{"id": "C24", "title": "Layered meshes stay index-consistent", "statement": "Stacking any number of layers gives a mesh in which every cell refers to existing points, namely the shifted copies of its own layer.", "quantifier": "for all base meshes and layer counts", "why_tests_cant": "Induction over layers.", "anchors": ["jax_am/phase_field/utils.py:generate_new_mesh"]}
{"id": "C25", "title": "CFD temperature is interpolated between the two surrounding snapshots", "statement": "The temperature handed to the phase field lies between the past and the future CFD snapshot, is the past one at the start time and the future one at the CFD time.", "quantifier": "for all time steps and snapshots", "why_tests_cant": "The violation depends on the schedule of the two clocks.", "anchors": ["applications/phase_field/coupled/example.py:interpolate_T", "applications/phase_field/coupled/example.py:coupled_integrator"]}
{"id": "C26", "title": "CFD to phase-field transfer keeps every cell value at its location", "statement": "The conversion between the CFD array layout and the phase-field cell order assigns to the cell at (x,y,z) the CFD value at (x,y,z).", "quantifier": "for all grid sizes and fields", "why_tests_cant": "All indices of all sizes.", "anchors": ["applications/phase_field/coupled/example.py:convert_temperature"]}
{"id": "C27", "title": "CFD mesh neighbour table is symmetric and closed", "statement": "In the structured CFD mesh each cell has the six face neighbours in a fixed order, with itself standing in at the boundary; neighbour relations are mutual; each boundary face appears exactly once in exactly one of the six surface sets.", "quantifier": "for all grid sizes", "why_tests_cant": "All sizes and boundary positions.", "anchors": ["jax_am/cfd/cfd_am.py:mesh3d", "jax_am/cfd/cfd_am.py:mesh2d"]}
{"id": "C28", "title": "Diffusion operator is conservative, symmetric and vanishes on constants", "statement": "The finite-volume diffusion operator summed over all cells is zero for every field, with constant or temperature-dependent conductivity; it vanishes on constant fields; with constant coefficient it is symmetric and dissipative.", "quantifier": "for all grid sizes, fields and conductivity functions", "why_tests_cant": "Global identity for all fields.", "anchors": ["jax_am/cfd/cfd_am.py:poisson.laplace", "jax_am/cfd/cfd_am.py:poisson.linear_laplace_kernel"]}
{"id": "C29", "title": "Ghost cells realise the boundary condition", "statement": "A Dirichlet ghost cell makes the face average equal the prescribed value; a Neumann ghost cell makes the one-sided face difference equal the prescribed gradient, on all six sides.", "quantifier": "for all fields, sides, spacings and values", "why_tests_cant": "Real-valued identity on all sides.", "anchors": ["jax_am/cfd/cfd_am.py:ghost_cell", "jax_am/cfd/cfd_am.py:get_GC_values"]}
{"id": "C30", "title": "Convection is conservative in a closed box", "statement": "With zero normal velocity on the boundary the convective term summed over all cells is zero, for every upwind blend; for a constant field it is the constant times the discrete divergence.", "quantifier": "for all grid sizes, fields and velocities", "why_tests_cant": "Telescoping sum for all sizes.", "anchors": ["jax_am/cfd/cfd_am.py:div", "jax_am/cfd/cfd_am.py:get_face_vels"]}
{"id": "C31", "title": "The moving flow window stays inside the domain and contains the laser", "statement": "If the window is not larger than the domain, the computed index window has exactly the window size, lies inside the domain and, if it is at least two cells wide, contains the cell column of the laser for every laser position inside the domain. (A window of one cell can miss the laser.) In z it is always the top block.", "quantifier": "for all sizes and all real laser positions", "why_tests_cant": "Rounding and clipping at all positions.", "anchors": ["jax_am/cfd/cfd_am.py:AM_3d.get_moving_box_boundary"]}
{"id": "C32", "title": "A CFD step advances time by dt, changes flow only in the window and never unmelts", "statement": "One time step advances the clock by dt, leaves all flow quantities outside the current window unchanged, and the recorded melted fraction is the running maximum, always in [0,1].", "quantifier": "for all states and all numbers of steps", "why_tests_cant": "Frame and history property.", "anchors": ["jax_am/cfd/cfd_am.py:AM_3d.time_integration", "jax_am/cfd/cfd_am.py:AM_3d.fluid_frac"]}
{"id": "C33", "title": "The CFD matrix is the exact derivative of its residual", "statement": "The matrix rows built by the equation object are the derivative of the discrete residual including boundary terms; for linear equations one exact linear solve gives residual zero; the Jacobi preconditioner is the matrix diagonal.", "quantifier": "for all grids, fields, boundary sets and sources", "why_tests_cant": "Mirrored boundary slots make the diagonal easy to get wrong for some cells only.", "anchors": ["jax_am/cfd/cfd_am.py:poisson.newton_update", "jax_am/cfd/cfd_am.py:poisson.compute_linearized_residual", "jax_am/cfd/cfd_am.py:poisson.apply_BC_to_matrix", "jax_am/cfd/cfd_am.py:solver_linear"]}
{"id": "C34", "title": "Global balance: change of content equals source plus boundary flux", "statement": "Summed over the domain the residual is stored change minus sources minus boundary flux, so a converged state satisfies the global balance exactly.", "quantifier": "for all grids, fields, sources and boundary fluxes", "why_tests_cant": "Sum over all cells.", "anchors": ["jax_am/cfd/cfd_am.py:poisson.compute_residual", "jax_am/cfd/cfd_am.py:poisson.apply_BC_to_residual"]}
{"id": "C35", "title": "The CFD Newton loop terminates with a bounded number of iterations", "statement": "The nonlinear solver performs at most max_it iterations whatever the linear solver returns and stops before only when the relative residual is within tolerance.", "quantifier": "for all residual functions and linear solver outputs", "why_tests_cant": "All solver behaviours.", "anchors": ["jax_am/cfd/cfd_am.py:solver_nonlinear"]}
{"id": "C36", "title": "Dirichlet temperature conditions are usable in the energy equation", "statement": "Solving the energy equation with a Dirichlet condition on some face evaluates the boundary flux with the conductivity at the boundary value.", "quantifier": "for all boundary condition lists", "why_tests_cant": "Depends on a configuration no example uses.", "anchors": ["jax_am/cfd/cfd_am.py:energy_eqn", "jax_am/cfd/cfd_am.py:poisson.apply_BC_to_residual"]}
{"id": "C37", "title": "The cell gradient honours the supplied boundary conditions", "statement": "The gradient routine evaluates boundary cells with the boundary conditions passed to it and is exact on linear fields in interior cells.", "quantifier": "for all fields and boundary conditions", "why_tests_cant": "All fields and all condition lists.", "anchors": ["jax_am/cfd/cfd_am.py:gradient"]}
{"id": "C38", "title": "Single-component face velocities are available on every axis", "statement": "Requesting the face velocity of axis 0, 1 or 2 returns that component of the full face velocity computation.", "quantifier": "for all axes and fields", "why_tests_cant": "Code path never exercised.", "anchors": ["jax_am/cfd/cfd_am.py:get_face_vel_component"]}
{"id": "C39", "title": "GAMMA thermal update keeps ambient equilibrium and obeys the maximum principle", "statement": "With the laser off and the plate at ambient temperature every update returns the same field; an interior update under the usual time-step bound stays between the smallest and largest neighbouring temperature; liquid fraction is in [0,1].", "quantifier": "for all grids, materials and numbers of steps", "why_tests_cant": "Unbounded histories and all fields.", "anchors": ["jax_am/cfd/gamma.py:update_T", "jax_am/cfd/gamma.py:BC_thermal", "jax_am/cfd/gamma.py:laplace", "jax_am/cfd/gamma.py:update_mat"]}
{"id": "C40", "title": "Batched cell evaluation equals direct evaluation", "statement": "Evaluating a cell kernel in batches returns exactly the list of kernel values of all cells in order, for every number of cells of at least one; for zero cells it raises.", "quantifier": "for all cell counts, kernels and inputs", "why_tests_cant": "Batch boundaries depend on the cell count.", "anchors": ["jax_am/fem/core.py:FEM.split_and_compute_cell"]}
{"id": "C41", "title": "Assembly: sparse matrix is the derivative of the assembled residual", "statement": "The assembled residual entry of a node is the sum of contributions of the element corners at that node; the triplets (I,J,V) define a matrix whose product with any increment is the assembled product of element Jacobians, so an affine element kernel gives res(u+d)=res(u)+A d; all row and column numbers are in range.", "quantifier": "for all meshes (also with repeated nodes), kernels and increments", "why_tests_cant": "Summation over arbitrary connectivity.", "anchors": ["jax_am/fem/core.py:FEM.compute_residual_vars_helper", "jax_am/fem/core.py:FEM.compute_newton_vars"]}
{"id": "C42", "title": "Internal forces are self-equilibrated", "statement": "For any constitutive map, the assembled internal force sums to zero over nodes in every component, because shape gradients sum to zero.", "quantifier": "for all meshes, solutions and tensor maps", "why_tests_cant": "Global identity.", "anchors": ["jax_am/fem/core.py:FEM.get_laplace_kernel", "jax_am/fem/core.py:FEM.get_shape_grads"]}
{"id": "C43", "title": "Patch test: gradients of affine fields are exact", "statement": "On every element with invertible Jacobian the computed physical gradient of an affine displacement field is its constant gradient at every quadrature point.", "quantifier": "for all element geometries and affine fields", "why_tests_cant": "All geometries.", "anchors": ["jax_am/fem/core.py:FEM.get_shape_grads", "jax_am/fem/core.py:FEM.sol_to_grad"]}
{"id": "C44", "title": "Dirichlet conditions pick exactly the requested nodes and are imposed consistently", "statement": "Selected nodes are exactly those satisfying the location function; the constrained residual is solution minus prescribed value there and the physical residual elsewhere (last condition wins on overlaps); the row-eliminated operator is its exact derivative.", "quantifier": "for all meshes, condition lists (also overlapping) and vectors", "why_tests_cant": "Overlapping conditions and all index sets.", "anchors": ["jax_am/fem/core.py:FEM.Dirichlet_boundary_conditions", "jax_am/fem/solver.py:apply_bc_vec", "jax_am/fem/solver.py:row_elimination", "jax_am/fem/solver.py:assign_bc"]}
{"id": "C45", "title": "An exact linear solve gives a solution satisfying equation and conditions", "statement": "For an affine problem and a linear solver that returns an exact solution, the row-elimination solver returns a vector with the prescribed Dirichlet values and zero residual on all free unknowns; the initial guess already satisfies the constrained rows.", "quantifier": "for all affine problems", "why_tests_cant": "All problems.", "anchors": ["jax_am/fem/solver.py:solver_row_elimination", "jax_am/fem/solver.py:linear_incremental_solver", "jax_am/fem/solver.py:linear_guess_solve"]}
{"id": "C46", "title": "A returned solution has small residual", "statement": "When solver returns, the norm of the constrained residual is at most 1e-6 and everything is finite.", "quantifier": "for all problems and linear solver behaviours, linear and nonlinear", "why_tests_cant": "Depends on the failure modes of the iterative solver.", "anchors": ["jax_am/fem/solver.py:solver_row_elimination", "jax_am/fem/solver.py:jax_solve"]}
{"id": "C47", "title": "Lagrange multiplier solver imposes all conditions at a stationary point", "statement": "The augmented matrix is the derivative of the augmented residual; at a zero of the augmented residual every Dirichlet value and every periodic pair is satisfied; both back ends are usable.", "quantifier": "for all condition lists", "why_tests_cant": "All constraint sets.", "anchors": ["jax_am/fem/solver.py:compute_residual_lm", "jax_am/fem/solver.py:get_A_fn_and_res_aug", "jax_am/fem/solver.py:solver_lagrange_multiplier"]}
{"id": "C48", "title": "Periodic pairing is correct", "statement": "When periodic setup succeeds, the i-th paired nodes are images of each other within tolerance and each first node occurs once.", "quantifier": "for all point sets and mappings", "why_tests_cant": "Arbitrary point sets.", "anchors": ["jax_am/fem/core.py:FEM.periodic_boundary_conditions"]}
{"id": "C49", "title": "Neumann faces are exactly the element faces lying on the location", "statement": "The selected (cell, face) pairs are exactly those whose face nodes all satisfy the location function, in lexicographic order without repetition; they are boundary faces of the mesh.", "quantifier": "for all meshes and location functions", "why_tests_cant": "All meshes.", "anchors": ["jax_am/fem/core.py:FEM.get_boundary_conditions_inds", "jax_am/fem/generate_mesh.py:Mesh.count_selected_faces"]}
{"id": "C50", "title": "Node reordering matches mesh-file node order with basis node order", "statement": "For each supported element type the order table is a permutation that sends each mesh-file node to the basis node at the same reference position, and face node lists are translated by the inverse permutation.", "quantifier": "for all element types and nodes", "why_tests_cant": "A wrong permutation can still give plausible results.", "anchors": ["jax_am/fem/basis.py:get_elements", "jax_am/fem/basis.py:reorder_inds"]}
{"id": "C51", "title": "cylinder_mesh drops two points coherently", "statement": "After removing the two construction points and renumbering, every cell corner refers to the same coordinates as before, for meshes not using those two points.", "quantifier": "for all gmsh point and cell tables", "why_tests_cant": "Off-by-one in renumbering only affects some cells.", "anchors": ["jax_am/fem/generate_mesh.py:cylinder_mesh"]}
{"id": "C52", "title": "Implicit differentiation returns the exact derivative", "statement": "With exact linear solves the reverse-mode rule returns v^T du/dp and the forward-mode rule returns du/dp times the direction, hence both are adjoint to each other.", "quantifier": "for all problems with invertible Jacobian, all directions", "why_tests_cant": "All parameters and directions.", "anchors": ["jax_am/fem/solver.py:implicit_vjp", "jax_am/fem/solver.py:ad_wrapper", "jax_am/fem/autodiff_utils.py:implicit_jvp_helper"]}
{"id": "C53", "title": "External loads enter with their exact resultants", "statement": "The nodal vectors of body force and traction sum to the quadrature integral of the load.", "quantifier": "for all meshes and loads", "why_tests_cant": "Global sums.", "anchors": ["jax_am/fem/core.py:FEM.compute_body_force_by_fn", "jax_am/fem/core.py:FEM.compute_Neumann_integral_vars"]}
{"id": "C54", "title": "Dynamic relaxation returns a solution", "statement": "dynamic_relax_solve runs and returns a displacement; its damping coefficient is always within the given bounds.", "quantifier": "for all problems", "why_tests_cant": "Path not exercised by tests.", "anchors": ["jax_am/fem/solver.py:dynamic_relax_solve", "jax_am/fem/solver.py:calC"]}
{"id": "C55", "title": "MMA move limits and asymptotes bracket the design", "statement": "In every optimisation step low < alfa <= x <= beta < upp, xmin <= alfa, beta <= xmax and alfa < beta.", "quantifier": "for all designs within bounds, all asymptote histories, gradients and positive move limits", "why_tests_cant": "All real histories.", "anchors": ["jax_am/fem/mma.py:MMA.mmasub"]}
{"id": "C56", "title": "The MMA interior point method stays strictly interior", "statement": "Whatever directions the inner linear solves produce, every iterate has alfa < x < beta and positive y, z, lambda, xsi, eta, mu, zeta, s; loops are bounded.", "quantifier": "for all problem data and all linear solver outputs", "why_tests_cant": "The directions are arbitrary reals.", "anchors": ["jax_am/fem/mma.py:subsolv"]}
{"id": "C57", "title": "Optimised densities stay in [0,1]", "statement": "optimize evaluates objective and constraints only at designs in [0,1] and returns one, for every objective, constraint, filter and iteration count.", "quantifier": "for all objectives, constraints and numbers of iterations", "why_tests_cant": "Unbounded histories, arbitrary callbacks.", "anchors": ["jax_am/fem/mma.py:optimize", "jax_am/fem/mma.py:MMA", "jax_am/fem/mma.py:subsolv"]}
{"id": "C58", "title": "The MMA subproblem is a first-order consistent convex approximation", "statement": "At the current design the approximation of objective and constraints has the value and gradient of the originals; all its coefficients are positive.", "quantifier": "for all designs and gradients", "why_tests_cant": "Real-valued identity.", "anchors": ["jax_am/fem/mma.py:MMA.mmasub"]}
{"id": "C59", "title": "The sensitivity filter is a non-negative weighting that conserves total sensitivity", "statement": "Filter weights are non-negative with positive diagonal and row sums, and for a symmetric weight matrix and densities above the floor the filter preserves the summed sensitivity.", "quantifier": "for all meshes and sensitivities", "why_tests_cant": "Global identity.", "anchors": ["jax_am/fem/mma.py:compute_filter_kd_tree", "jax_am/fem/mma.py:applySensitivityFilter"]}
{"id": "C60", "title": "Linear elastic stress is symmetric, objective for small rotations and dissipation-free", "statement": "The stress is symmetric, linear in the displacement gradient, zero for skew gradients and its work with the strain is non-negative, zero only for zero strain.", "quantifier": "for all displacement gradients", "why_tests_cant": "All real matrices.", "anchors": ["jax_am/fem/models.py:LinearElasticity"]}
{"id": "C61", "title": "Plastic return mapping keeps stress inside the yield surface", "statement": "After every update the von Mises stress is min(trial, yield), the pressure equals the trial pressure, elastic trial states are returned unchanged, and this holds for all load histories.", "quantifier": "for all displacement histories", "why_tests_cant": "Unbounded histories of real inputs.", "anchors": ["jax_am/fem/models.py:Plasticity"]}
{"id": "C62", "title": "Hyperelastic energy is frame indifferent and stress-free at rest", "statement": "The energy is unchanged by rotations of the deformed state, is zero and stationary at the undeformed state.", "quantifier": "for all deformation gradients and rotations", "why_tests_cant": "All real matrices.", "anchors": ["jax_am/fem/models.py:HyperElasticity"]}
{"id": "C63", "title": "External faces of the active part are found exactly, also incrementally", "statement": "The face table reports exactly those faces of active cells that belong to no other active cell, and updating it after activating more cells gives the same set as recomputing from scratch.", "quantifier": "for all meshes and activation histories", "why_tests_cant": "All histories.", "anchors": ["applications/fem/thermal/models.py:hash_map_for_faces", "applications/fem/thermal/models.py:update_hash_map"]}
{"id": "C64", "title": "Active sub-mesh extraction is coherent", "statement": "The extracted mesh has exactly the active cells in order, its cell corners have the same coordinates as in the full mesh, every point is used, and the two index maps are mutually inverse.", "quantifier": "for all meshes and activation patterns", "why_tests_cant": "All patterns.", "anchors": ["applications/fem/thermal/models.py:get_active_mesh"]}
{"id": "C65", "title": "Colouring-compressed Jacobians equal the dense Jacobian", "statement": "For every sparsity pattern containing the true pattern and every proper colouring the compressed evaluation expands to the exact Jacobian.", "quantifier": "for all functions, patterns and colourings", "why_tests_cant": "All patterns.", "anchors": ["jax_am/fem/experiments/sparsejac.py:jacrev", "jax_am/fem/experiments/sparsejac.py:jacfwd"]}
{"id": "C66", "title": "Exported data frame rows carry the time of their file", "statement": "Each exported row carries the time of the solution file it came from.", "quantifier": "for all directory listings and field sets", "why_tests_cant": "Directory order and field count vary.", "anchors": ["jax_am/common.py:to_data_frame"]}
{"id": "C67", "title": "Thermo-mechanical material state moves only powder to liquid to solid", "statement": "The quadrature-point state changes only from powder to liquid above the liquidus and from liquid to solid below it; solid and never-molten powder persist.", "quantifier": "for all temperature histories", "why_tests_cant": "Unbounded histories.", "anchors": ["demos/fem/thermal_mechanical/example.py:Plasticity.update_dT_and_phase"]}
{"id": "C68", "title": "The number of LBM time steps follows from the laser path", "statement": "When every segment of the laser path takes a whole number of time steps, the simulation makes as many steps as the segments add up to, plus one step per interior way-point (so it is not travel time divided by the step).", "quantifier": "for all way-point lists with whole travel times", "why_tests_cant": "Unbounded way-point lists.", "anchors": ["jax_am/lbm/core.py:read_path", "jax_am/lbm/core.py:simulation (total_time_steps)"]}
{"id": "C69", "title": "Conversion to lattice units preserves the physical parameters", "statement": "The relaxation times computed from the input reproduce the physical kinematic viscosity and the two thermal diffusivities through the lattice relation nu=(tau-1/2)/3*h^2/dt; the converted solidus and liquidus scale back to the input, and the enthalpy curve is continuous in lattice units exactly when it is in physical units.", "quantifier": "for all positive mesh sizes, time steps, densities and reference temperatures", "why_tests_cant": "Real parameters.", "anchors": ["jax_am/lbm/core.py:simulation (unit conversion)"]}
{"id": "C70", "title": "Heat streaming only exchanges heat with walls", "statement": "In a domain enclosed by walls the streaming step changes the total enthalpy of liquid and interface cells exactly by the exchange over cell-wall links at the wall temperature; gas links are adiabatic.", "quantifier": "for all domain sizes, phase maps and distributions", "why_tests_cant": "A global sum over all cells for any geometry.", "anchors": ["jax_am/lbm/core.py:update_h"]}
{"id": "C71", "title": "Surface forces and heating act only at the free surface, in the right direction", "statement": "Away from the interface the only force is gravity and there is no heat source; the thermocapillary force is tangential to the interface; a flat horizontal interface has no curvature force; the laser heats only upward facing interfaces and never cools; the temperature gradient ignores gas and wall cells.", "quantifier": "for all temperatures, fill levels, normals and parameters", "why_tests_cant": "Real inputs.", "anchors": ["jax_am/lbm/core.py:compute_f_source_term", "jax_am/lbm/core.py:compute_h_src", "jax_am/lbm/core.py:compute_T_grad", "jax_am/lbm/core.py:get_phi"]}
{"id": "C72", "title": "Order parameters stay between 0 and 1 under a time-step restriction", "statement": "If the time step times the mobility prefactor times the largest relaxation rate (curvature part with the full anisotropy factor plus local part, which grows with the number of orientations) is at most 1, then order parameters that start in [0,1] stay in [0,1] at all later explicit Euler steps, for any positive temperature history.", "quantifier": "for all grids, numbers of orientations, parameters, temperature histories and step counts", "why_tests_cant": "An invariant over unbounded runs and real parameters.", "anchors": ["jax_am/phase_field/allen_cahn.py:phase_field", "jax_am/phase_field/allen_cahn.py:explicit_euler"]}
{"id": "C73", "title": "The phase-field right-hand side is minus mobility times the derivative of a free energy", "statement": "The closed-form gradient used by the model is the partial derivative of the local energy; with isotropic interfaces the whole right-hand side is minus the (positive) mobility times the partial derivative of the discrete free energy: local energy plus squared differences over inner faces; the interface term is symmetric and dissipative.", "quantifier": "for all fields, temperatures, grids and parameters", "why_tests_cant": "A statement about derivatives at every state.", "anchors": ["jax_am/phase_field/allen_cahn.py:phase_field"]}
{"id": "C74", "title": "Grain numbers of stacked layers are not unique", "statement": "Stacking layers concatenates the grain numbers without an offset, so two cells of different layers and different orientation can carry the same grain number.", "quantifier": "exists", "why_tests_cant": "Needs the interplay of two functions.", "anchors": ["jax_am/phase_field/utils.py:generate_new_mesh"]}
{"id": "C75", "title": "The orientation written to file is a dominant one", "statement": "The orientation index written for a cell is a valid index and its order parameter is at least as large as every other order parameter of the cell.", "quantifier": "for all states", "why_tests_cant": "All real states.", "anchors": ["jax_am/phase_field/allen_cahn.py:PFSolver.write_sols"]}
{"id": "C76", "title": "The body heat source cannot run past the end of the laser", "statement": "With the body heat source, a time step starting at or after the laser-off time divides zero by zero depth and raises, so no run ever gets past that time.", "quantifier": "for all parameters, states and solver outputs", "why_tests_cant": "Fails only in runs longer than the laser-on time.", "anchors": ["jax_am/cfd/cfd_am.py:AM_3d.get_body_heat_source", "jax_am/cfd/cfd_am.py:AM_3d.toolpath"]}
{"id": "C77", "title": "The pressure equation is solvable", "statement": "The source of the pressure equation sums to zero over the window for every predicted velocity and temperature, the residual sums to zero for every pressure, and adding a constant to the pressure changes nothing.", "quantifier": "for all window sizes, velocities, temperatures and pressures", "why_tests_cant": "Solvability of a singular system for all fields.", "anchors": ["jax_am/cfd/cfd_am.py:velocity_eqn", "jax_am/cfd/cfd_am.py:AM_3d.vel_bc"]}
{"id": "C78", "title": "An exact implicit energy step obeys the maximum principle", "statement": "Without convection, a temperature that makes the residual zero exceeds the old maximum only if there is a positive source or inward flux, and falls below the old minimum only if there is a negative source or outward flux, whatever the time step.", "quantifier": "for all grids, fields, positive conductivity and heat capacity functions and all time steps", "why_tests_cant": "All real fields and unbounded time steps.", "anchors": ["jax_am/cfd/cfd_am.py:energy_eqn", "jax_am/cfd/cfd_am.py:poisson.compute_residual"]}
{"id": "C79", "title": "Flow left behind by the window is frozen", "statement": "A cell that stays outside the window keeps its velocity, pressure gradient and convective terms for any number of steps, even when it is completely solid.", "quantifier": "for all runs, and a solid cell that keeps its velocity exists", "why_tests_cant": "Needs runs in which the window moves on.", "anchors": ["jax_am/cfd/cfd_am.py:AM_3d.time_integration"]}
{"id": "C80", "title": "Ambient equilibrium of the coupled CFD solver", "statement": "Without laser power, starting from the initial state, every number of steps of the whole coupled loop leaves the temperature at ambient and velocity, pressure gradient and convective terms at zero, provided the linear solver returns zero for a zero right-hand side.", "quantifier": "for all grids, materials and numbers of steps", "why_tests_cant": "Unbounded histories of the coupled loop.", "anchors": ["jax_am/cfd/cfd_am.py:AM_3d.time_integration", "jax_am/cfd/cfd_am.py:energy_eqn", "jax_am/cfd/cfd_am.py:velocity_eqn"]}
{"id": "C81", "title": "Heat balance of the GAMMA update", "statement": "The heat taken up by the plate in one update equals the time step times the heat entering through the surface (convection, radiation, laser).", "quantifier": "for all fields, grids, materials and laser positions", "why_tests_cant": "An exact global balance for all real fields.", "anchors": ["jax_am/cfd/gamma.py:update_T", "jax_am/cfd/gamma.py:BC_thermal", "jax_am/cfd/gamma.py:laplace"]}
{"id": "C82", "title": "Scan directions are unit vectors along the toolpath", "statement": "Every toolpath segment of positive length gets the unit vector pointing along it; a dwell has no direction.", "quantifier": "for all toolpaths", "why_tests_cant": "Toolpaths in tests run along one axis, where the formula is right.", "anchors": ["applications/cfd/gamma/example.py:simulation"]}
{"id": "C83", "title": "The residual is the discrete weak form", "statement": "Paired with any nodal test field v, the residual returned by compute_residual_vars equals the quadrature sum of stress:grad v plus mass-map term, plus the Robin face term, minus body load and minus traction power; internal_vars['body'] replaces the source function.", "quantifier": "for all meshes, element tables, tensor/mass/Robin maps, loads, solutions and test fields", "why_tests_cant": "Tests can only pair the residual with a few test fields on a few meshes; the identity is what makes the solved system the weak form at all.", "anchors": ["jax_am/fem/core.py:FEM.compute_residual_vars,FEM.compute_residual_vars_helper,FEM.get_laplace_kernel,FEM.get_mass_kernel,FEM.get_cauchy_kernel,FEM.compute_body_force_by_fn,FEM.compute_body_force_by_sol,FEM.compute_Neumann_integral_vars"]}
{"id": "C84", "title": "Symmetric stress produces no internal moment", "statement": "If the stress returned by the tensor map is symmetric at every quadrature point, the assembled internal nodal forces have zero moment: sum over nodes of x_i r_j - x_j r_i vanishes.", "quantifier": "for all meshes with invertible elements and all solutions", "why_tests_cant": "Depends on isoparametric geometry being consistent with the gradient tables for every element shape.", "anchors": ["jax_am/fem/core.py:FEM.get_shape_grads,FEM.get_laplace_kernel,FEM.compute_residual_vars"]}
{"id": "C85", "title": "Surface quadrature weights are true areas", "statement": "For positively oriented cells, nanson_scale at a face quadrature point is the reference weight times the area (length in 2-D) of the image of the reference tangent vectors.", "quantifier": "for all cell geometries, faces and reference normals", "why_tests_cant": "Holds for arbitrarily distorted cells; tests use boxes where all faces are axis aligned.", "anchors": ["jax_am/fem/core.py:FEM.get_face_shape_grads"]}
{"id": "C86", "title": "Gradients are right for problems with periodic conditions", "statement": "For a problem with periodic boundary conditions the reverse-mode rule returns the derivative of the solution that solver returns.", "quantifier": "every exact linear solver, gradient operator, iteration count, parameter value and output weighting", "why_tests_cant": "The rule ignores the periodic pairs; a test must combine periodic conditions with a gradient check, and the discrepancy depends on the weighting v.", "anchors": ["jax_am/fem/solver.py:implicit_vjp", "jax_am/fem/solver.py:ad_wrapper", "jax_am/fem/solver.py:solver"]}
{"id": "C87", "title": "MMA Newton directions solve the linearised optimality system", "statement": "At every interior iterate the reduced linear system has a solution, whichever of the two reductions (m<n or m>=n) is used, and along the direction rebuilt from it every component of the optimality residual decreases at its own rate; the residual norm decreases for small steps.", "quantifier": "for all well-posed subproblems, interior iterates and exact linear solvers", "why_tests_cant": "Two elimination orders over arbitrary sizes and real data; a wrong term in the back-substitution can still converge on tested data.", "anchors": ["jax_am/fem/mma.py:subsolv"]}
{"id": "C88", "title": "Optimisation runs complete", "statement": "With an exact linear solver, a correct k-d tree and at least 20 flexible cells, optimize never raises and returns after exactly maxIters evaluations, for every objective and constraint handle.", "quantifier": "for all handles, initial designs in [0,1], positive move limits and iteration counts", "why_tests_cant": "Singular systems and non-terminating loops can occur for particular real data only.", "anchors": ["jax_am/fem/mma.py:optimize", "jax_am/fem/mma.py:subsolv", "jax_am/fem/mma.py:MMA.mmasub"]}
{"id": "C89", "title": "The MMA subproblem solver returns a near-optimal point", "statement": "subsolv returns a point satisfying the first-order conditions of its convex subproblem up to 0.9e-6 with complementarity 1e-6, and its cost exceeds that of any feasible point by at most a bound linear in these tolerances.", "quantifier": "for all well-posed subproblems and all feasible points", "why_tests_cant": "Optimality compares with infinitely many points.", "anchors": ["jax_am/fem/mma.py:subsolv"]}
{"id": "C90", "title": "The sensitivity filter works for any number of flexible cells", "statement": "compute_filter_kd_tree returns a filter for every non-empty set of flexible cells.", "quantifier": "for all meshes", "why_tests_cant": "All demos have more than 20 cells.", "anchors": ["jax_am/fem/mma.py:compute_filter_kd_tree", "jax_am/fem/mma.py:optimize"]}
{"id": "C91", "title": "Shape tables are the nodal Lagrange functions in mesh order", "statement": "For every Lagrange element type the shape values and reference gradients are those of the function that is one at its own mesh node and zero at the others; they sum to one, reproduce the coordinates, and the weights sum to the cell volume.", "quantifier": "for all element types of Lagrange kind, all nodes, quadrature points and directions, for every library that meets the documented contract", "why_tests_cant": "A wrong order or table gives a plausible element; the identity must hold at every point and node.", "anchors": ["jax_am/fem/basis.py:get_shape_vals_and_grads", "jax_am/fem/basis.py:get_elements"]}
{"id": "C92", "title": "Face tables live on their facet", "statement": "Every face quadrature point lies in the cell and on its facet, nodes off the facet have face value zero, face gradients are exact, and the face weights sum to the facet size.", "quantifier": "for all element types of Lagrange kind, faces, face points and nodes", "why_tests_cant": "Only particular faces and rules are exercised by a test mesh.", "anchors": ["jax_am/fem/basis.py:get_face_shape_vals_and_grads"]}
{"id": "C93", "title": "Integration weights measure affine cells, their faces and structured meshes", "statement": "On a cell that is an affine image of the reference cell the Jacobian is the matrix of the map, JxW sums to its volume and the face scales sum to the face area; on box and rectangle meshes the total is the volume of the domain.", "quantifier": "for all element types of Lagrange kind, affine cells, faces and mesh sizes", "why_tests_cant": "Infinitely many maps and mesh sizes.", "anchors": ["jax_am/fem/core.py:FEM.get_shape_grads", "jax_am/fem/core.py:FEM.get_face_shape_grads", "jax_am/fem/basis.py:get_shape_vals_and_grads", "jax_am/common.py:box_mesh", "jax_am/common.py:rectangle_mesh"]}
{"id": "C94", "title": "Tetrahedron quality is six signed volumes", "statement": "check_mesh_TET4 returns for each cell six times its signed volume, equal to the Jacobian determinant used in the assembly; inverting fails exactly when a value is zero. The meshio cell type of an element type is unique and has the same number of nodes.", "quantifier": "for all tetrahedral meshes and all element types", "why_tests_cant": "Degenerate and inverted cells are rare in test meshes.", "anchors": ["jax_am/fem/generate_mesh.py:check_mesh_TET4", "jax_am/fem/generate_mesh.py:get_meshio_cell_type"]}
{"id": "C95", "title": "The chosen quadrature integrates element matrices exactly", "statement": "With a rule exact to its nominal order, products of reference gradients are integrated exactly for every Lagrange element type, and products of shape functions for every box-shaped one.", "quantifier": "for all Lagrange element types, pairs of nodes and directions", "why_tests_cant": "Under-integration changes results slightly and is not visible as an error.", "anchors": ["jax_am/fem/basis.py:get_elements", "jax_am/fem/basis.py:get_shape_vals_and_grads"]}
{"id": "C96", "title": "Mass matrices are integrated exactly on tetrahedra", "statement": "Products of shape functions are integrated exactly by the rule chosen for TET4.", "quantifier": "for all pairs of nodes", "why_tests_cant": "Mass terms are exercised with hexahedra only.", "anchors": ["jax_am/fem/basis.py:get_elements"]}
{"id": "C97", "title": "The assembled elastic stiffness is linear, symmetric, positive semi-definite and blind to rigid motions", "statement": "For LinearElasticity the residual is linear in the displacement, its work is symmetric in the two displacements and non-negative, vanishes only if every strain vanishes, and adding a translation and infinitesimal rotation leaves the residual unchanged.", "quantifier": "for all meshes, elements, displacements and boundary selections", "why_tests_cant": "All meshes and displacement fields.", "anchors": ["jax_am/fem/models.py:LinearElasticity.get_tensor_map", "jax_am/fem/core.py:FEM.compute_residual_vars"]}
{"id": "C98", "title": "The return map is the closest point projection", "statement": "The returned stress satisfies the principle of maximum plastic dissipation against every admissible stress, and the map is monotone and never increases the distance of two trial stresses.", "quantifier": "for all dimensions, yield stresses and trial stresses", "why_tests_cant": "All pairs of tensors.", "anchors": ["jax_am/fem/models.py:Plasticity.get_maps"]}
{"id": "C99", "title": "The plastic residual uses exactly the stress that is stored, and is monotone", "statement": "The residual's internal work is the work of the stress update_stress_strain stores for the same displacement, the residual is a monotone map after every history, repeating an update changes nothing, and the average stress is admissible.", "quantifier": "for all meshes, histories and displacements", "why_tests_cant": "Unbounded histories on all meshes.", "anchors": ["jax_am/fem/models.py:Plasticity.update_stress_strain", "jax_am/fem/models.py:Plasticity.compute_avg_stress"]}
{"id": "C100", "title": "Surface area and traction", "statement": "compute_surface_area returns the area of the located faces whatever the solution; compute_traction returns the force through them.", "quantifier": "for all meshes, locations and solutions", "why_tests_cant": "The demo pulls on one axis-aligned top face only.", "anchors": ["jax_am/fem/models.py:Mechanics.compute_surface_area", "jax_am/fem/models.py:Mechanics.compute_traction"]}
{"id": "C101", "title": "The error norms are norms of the error", "statement": "compute_l2_norm_error is zero exactly if the solution matches at the quadrature points, scales and satisfies the triangle inequality; compute_h1_norm_error bounds it and is equivalent to the H1 norm; both vanish for affine fields.", "quantifier": "for all meshes, solutions and exact solutions", "why_tests_cant": "All functions.", "anchors": ["jax_am/fem/models.py:LinearPoisson.compute_l2_norm_error", "jax_am/fem/models.py:LinearPoisson.compute_h1_norm_error"]}
{"id": "C102", "title": "Thermo-mechanical stress update", "statement": "The stress is the radial return at 250 MPa of the old stress plus the elastic response to the strain increment less the thermal expansion of solid material; after every history it is symmetric and admissible; free expansion of solid material keeps the stress.", "quantifier": "for all temperature and displacement histories", "why_tests_cant": "Unbounded histories.", "anchors": ["demos/fem/thermal_mechanical/example.py:Plasticity.get_maps", "demos/fem/thermal_mechanical/example.py:Plasticity.update_stress_strain"]}
{"id": "C103", "title": "Heat is balanced and flows out of hot walls", "statement": "The stored heat of a time step is dt times the sum of the residual and the boundary inflow; the wall flux vanishes exactly at ambient temperature, has the sign of cooling and decreases with the temperature; the laser adds between zero and its peak.", "quantifier": "for all meshes, temperatures, times steps and laser positions", "why_tests_cant": "All fields.", "anchors": ["demos/fem/thermal_mechanical/example.py:Thermal.get_tensor_map", "demos/fem/thermal_mechanical/example.py:Thermal.get_mass_map"]}
{"id": "C104", "title": "Material interpolation of topology optimisation", "statement": "The penalised modulus is between the void and the full modulus and increasing, likewise the two-material law; the plane-stress law is the 3-D law whose out-of-plane stress vanishes; set_params places the design variables on the flexible cells and ones elsewhere.", "quantifier": "for all densities, moduli and penalties", "why_tests_cant": "Real parameters.", "anchors": ["applications/fem/top_opt/fem_model.py:Elasticity.set_params", "applications/fem/top_opt/fem_model.py:Elasticity.get_tensor_map"]}
{"id": "C105", "title": "Compliance is strain energy and falls with added material", "statement": "In equilibrium the compliance equals the work of the stresses, is non-negative, and a design with at least as much material in every cell has no larger compliance.", "quantifier": "for all meshes, laws, loads, supports and designs", "why_tests_cant": "All pairs of designs.", "anchors": ["applications/fem/top_opt/fem_model.py:Elasticity.compute_compliance"]}
{"id": "C106", "title": "Reported von Mises stress", "statement": "compute_von_Mises_stress reports the von Mises stress of the stress used by the solver; cell averages lie between the quadrature values.", "quantifier": "for all cases, densities and gradients", "why_tests_cant": "Real inputs; only plotted in the repository.", "anchors": ["applications/fem/top_opt/fem_model.py:Elasticity.get_von_mises_stress_fn"]}
{"id": "C107", "title": "Phase-field fracture splits the energy and is irreversible", "statement": "Tensile and compressive energies are non-negative and sum to the elastic energy, compression drives no damage; stiffness degrades monotonically; history and damage are running maxima; the damage problem has one solution at the quadrature points.", "quantifier": "for all meshes, displacement histories and tensors", "why_tests_cant": "Unbounded histories.", "anchors": ["demos/fem/phase_field_fracture/example.py:Elasticity.get_maps", "demos/fem/phase_field_fracture/example.py:PhaseField.get_mass_map"]}
{"id": "C108", "title": "Functions of symmetric tensors and their derivative rule", "statement": "eigen_f and its custom derivative depend only on the tensor, not on the eigenvectors chosen, and the rule is the derivative of the function.", "quantifier": "for all symmetric tensors, including repeated eigenvalues, and directions", "why_tests_cant": "All tensors; repeated eigenvalues are a null set.", "anchors": ["demos/fem/phase_field_fracture/eigen.py:get_eigen_f_custom"]}
{"id": "C109", "title": "The thin wall grows consistently", "statement": "Whatever the laser path, after each step the active cells are the initial ones and those the laser has passed above within the beam radius; the reported faces are the exterior faces of the active part; the step's solve sees the current temperatures of exactly the active points and replaces exactly those; points of no active cell keep 300 K; and the step fails only if the active part has no exterior face.", "quantifier": "for all meshes, laser paths, initial activations and solver results", "why_tests_cant": "All paths and meshes.", "anchors": ["applications/fem/thermal/thin_wall.py:ded_thin_wall", "applications/fem/thermal/models.py:update_hash_map"]}
{"id": "C110", "title": "Heat of a thermal step comes from laser and convection", "statement": "The heat stored during a step equals the residual plus convection through all exterior faces plus the Gaussian beam through the horizontal exterior faces.", "quantifier": "for all meshes, tables, temperatures, laser positions and face lists", "why_tests_cant": "All meshes and fields.", "anchors": ["applications/fem/thermal/models.py:Thermal", "applications/fem/thermal/thin_wall.py:ded_thin_wall", "applications/fem/thermal/bare_plate.py:bare_plate_single_track"]}
{"id": "C111", "title": "Quaternions become rotations", "statement": "get_rot_mat of a quaternion q is |q|^2 times a rotation; for unit q it is a rotation that fixes the axis of q and has the angle of q, q and -q give the same matrix, and products of quaternions go to products of matrices.", "quantifier": "for all quaternions", "why_tests_cant": "All real quadruples; a transposed matrix or a swapped sign still looks like a rotation.", "anchors": ["applications/fem/crystal_plasticity/models.py:get_rot_mat"]}
{"id": "C112", "title": "The rotated elastic tensor is that of the rotated lattice", "statement": "For every orientation the rotated tensor has all minor and major symmetries, gives the stress R C:(R^T E R) R^T, and stores at least 47000 |E|^2; hence the lattice stress is symmetric and vanishes exactly when the elastic part is a rotation.", "quantifier": "for all orthogonal matrices and all strains", "why_tests_cant": "All orientations and strains; index slips in an eight-index product keep many single entries right.", "anchors": ["applications/fem/crystal_plasticity/models.py:rotate_tensor_rank_4", "applications/fem/crystal_plasticity/models.py:rotate_tensor_rank_2", "applications/fem/crystal_plasticity/models.py:CrystalPlasticity.custom_init", "applications/fem/crystal_plasticity/models.py:implicit_residual"]}
{"id": "C113", "title": "Slip dissipates and keeps the volume", "statement": "The slip increments follow the power law with the sign of the resolved stress, so plastic work is never negative; the plastic increment is trace free, and the determinant of the inverse plastic deformation does not change.", "quantifier": "for all slip systems, states, stresses, non-negative time steps and histories", "why_tests_cant": "All stresses and states. Volume is kept exactly only while one system slips; two systems slipping together lose volume at second order, below any test tolerance.", "anchors": ["applications/fem/crystal_plasticity/models.py:helper"]}
{"id": "C114", "title": "Slip resistance grows towards saturation", "statement": "The hardening matrix is 1 inside blocks of three and r elsewhere (IndexError unless three divides the number of systems); with the values of the code all systems harden alike along every history, the resistance never decreases below saturation, and never passes it.", "quantifier": "for all numbers of slip systems, states and histories", "why_tests_cant": "All histories. Saturation holds only for small slips per step; large steps pass it.", "anchors": ["applications/fem/crystal_plasticity/models.py:CrystalPlasticity.custom_init", "applications/fem/crystal_plasticity/models.py:helper"]}
{"id": "C115", "title": "The local stress solve", "statement": "When the local Newton iteration returns, the residual is within the tolerance and the stress symmetric within twice the tolerance; each step takes the first of 1, 1/2, 1/4, 1/8, 1/16 that lowers the residual, or 1/16; and the first increment is the elastic trial stress.", "quantifier": "for all states, deformations, Jacobian and linear-solve routines", "why_tests_cant": "All inputs; the loop has no bound and carries the residual of another point if the halving and the update get out of step.", "anchors": ["applications/fem/crystal_plasticity/models.py:newton_solver", "applications/fem/crystal_plasticity/models.py:implicit_residual"]}
{"id": "C116", "title": "Crystal stress", "statement": "The first Piola-Kirchhoff stress is Fe S G^T/det G with G the new inverse plastic deformation, P_to_sigma recovers Fe S Fe^T/det Fe, a superposed rotation turns the stress and leaves the state update alone, and where the elastic part is a rotation there is neither stress nor any change of state.", "quantifier": "for all states, deformations with nonzero determinant, rotations", "why_tests_cant": "All deformations and rotations.", "anchors": ["applications/fem/crystal_plasticity/models.py:first_PK_stress", "applications/fem/crystal_plasticity/models.py:update_int_vars", "applications/fem/crystal_plasticity/models.py:P_to_sigma"]}
{"id": "C117", "title": "The derivative of the local solution is exact", "statement": "The local residual is differentiable everywhere, also where a resolved stress is zero, and the custom derivative rule returns the derivative of every differentiable family of local solutions.", "quantifier": "for all states, deformations, directions and paths of solutions with regular local Jacobian", "why_tests_cant": "All directions and states; finite differences see neither the sign function at zero nor small errors.", "anchors": ["applications/fem/crystal_plasticity/models.py:f_jvp", "applications/fem/crystal_plasticity/models.py:implicit_residual"]}
{"id": "C118", "title": "Internal forces at finite strain carry no moment", "statement": "If P F^T is symmetric at every quadrature point, the nodal residual of a body without loads has no moment about the deformed positions; this holds for crystal plasticity with exact local solutions and for hyperelasticity.", "quantifier": "for all meshes, element tables with gradients summing to zero, displacement fields", "why_tests_cant": "All meshes and displacement fields; about the undeformed positions the moment is not zero.", "anchors": ["applications/fem/crystal_plasticity/models.py:CrystalPlasticity.get_tensor_map", "applications/fem/crystal_plasticity/models.py:CrystalPlasticity.update_int_vars_gp", "jax_am/fem/models.py:HyperElasticity.get_tensor_map", "jax_am/fem/core.py:FEM.compute_residual"]}
{"id": "C119", "title": "A simulation can be repeated", "statement": "Calling simulation twice with the same argument returns the same value.", "quantifier": "for all load sequences and material updates", "why_tests_cant": "The second call starts from the parameters left by the first, that is after all loads but the last; with one load step nothing is seen.", "anchors": ["applications/fem/crystal_plasticity/simple.py:simulation", "applications/fem/crystal_plasticity/calibration.py:simulation", "applications/fem/crystal_plasticity/models.py:CrystalPlasticity.set_params"]}
{"id": "C120", "title": "The unit cell is periodic and stretches as prescribed", "statement": "On the cube mesh the nine periodic conditions of rve_problem pair each node of a side with the opposite node, no more and no less, and the Dirichlet conditions fix the node at the origin only; a solution that meets them has mean displacement gradient H_bar and displacement jumps H_bar times the side length.", "quantifier": "for all mesh sizes and side lengths (elements wider than the isclose tolerance), all H_bar and all fluctuations", "why_tests_cant": "A test checks one mesh; a node that is missed or matched twice on an edge changes the result only slightly, and the tolerance of isclose matters for fine meshes only.", "anchors": ["applications/fem/multi_scale/rve.py:rve_problem", "applications/fem/multi_scale/fem_model.py:HyperElasticity.fluc_to_disp", "jax_am/fem/core.py:FEM.periodic_boundary_conditions"]}
{"id": "C121", "title": "The energy of the unit cell is a potential", "statement": "A solution of the unit cell makes compute_energy stationary among the periodic fluctuations; the integral of the stress is the derivative of the energy with respect to H_bar (Hill-Mandel); the energy does not change when the cell is rotated, is not negative, and vanishes at rest; a uniform material needs no fluctuation.", "quantifier": "for all meshes, moduli, macroscopic gradients and differentiable families of solutions", "why_tests_cant": "The recorded energies are plausible for any stress law; the derivative relation must hold in all directions of H_bar at once.", "anchors": ["applications/fem/multi_scale/fem_model.py:HyperElasticity.compute_energy", "applications/fem/multi_scale/fem_model.py:HyperElasticity.maps_rve", "jax_am/fem/solver.py:solver_lagrange_multiplier"]}
{"id": "C122", "title": "Moduli follow the pattern of inclusions", "statement": "compute_moduli returns the moduli of the inclusion exactly in the open cubes around the unit centres; a sample of several units repeats the pattern of one; compute_traction uses the moduli that hold on the face.", "quantifier": "for all points, numbers of units, side lengths and ratios", "why_tests_cant": "The claim about tractions fails only for ratio > 1/2, a value the command line accepts and no script uses.", "anchors": ["applications/fem/multi_scale/fem_model.py:HyperElasticity.compute_moduli", "applications/fem/multi_scale/fem_model.py:HyperElasticity.compute_traction"]}
{"id": "C123", "title": "The network surrogate is a material", "statement": "The six-component form of a symmetric tensor loses nothing; the energy of the network depends on the right Cauchy-Green tensor only, so it is frame indifferent and its internal forces have no moment; a network that reproduces the training data gives a brick of cells under the same gradient the energy of that many cells.", "quantifier": "for all differentiable networks, meshes and displacements", "why_tests_cant": "A transposed factor in F^T F passes all tests with symmetric F, which is what the training data contain.", "anchors": ["applications/fem/multi_scale/fem_model.py:HyperElasticity.maps_nn", "applications/fem/multi_scale/utils.py:flat_to_tensor", "applications/fem/multi_scale/utils.py:tensor_to_flat", "applications/fem/multi_scale/trainer.py:H_to_C"]}
{"id": "C124", "title": "Data collection finishes and splits the data", "statement": "collect_data ends and stores the energy of every sample; a failed solve is rescued by the quasi-static loading; shuffle_data splits the data into disjoint training, validation and test sets.", "quantifier": "for all samples, solvers and random choices", "why_tests_cant": "The loop is endless only when a sample fails, and the loading steps start from zero every time, so they repeat the first solve.", "anchors": ["applications/fem/multi_scale/rve.py:solve_rve_problem", "applications/fem/multi_scale/rve.py:collect_data", "applications/fem/multi_scale/trainer.py:shuffle_data"]}
{"id": "C125", "title": "The percentage error is a number", "statement": "evaluate_errors scales training values to [0, 1] and reports for every sample the error relative to the true value.", "quantifier": "for all training sets and predictions", "why_tests_cant": "The division by zero happens at the one sample with the smallest energy and shows as inf in a log.", "anchors": ["applications/fem/multi_scale/trainer.py:min_max_scale", "applications/fem/multi_scale/trainer.py:evaluate_errors"]}
{"id": "C126", "title": "The polynomial ansatz vanishes at rest", "statement": "All terms of poly_psi vanish for C = I, so that a fitted energy is zero in the undeformed state.", "quantifier": "for the undeformed state", "why_tests_cant": "A fit hides the constant part of the terms.", "anchors": ["applications/fem/multi_scale/trainer.py:poly_psi"]}
{"id": "C127", "title": "The tensile curve is recorded in order", "statement": "homogenization_problem records eleven rows: the rest state first, then the energy and force of the solution at 1, 2, ..., 10 percent.", "quantifier": "for all solvers and energy and force functions", "why_tests_cant": "A shifted row changes no single number.", "anchors": ["applications/fem/multi_scale/deploy.py:homogenization_problem"]}
{"id": "C128", "title": "A side of a box mesh is found exactly", "statement": "On a HEX8 box_mesh, get_boundary_conditions_inds with the location function of one side returns one face for every outer element face of that side, all of whose nodes lie on the side, and compute_surface_area returns the product of the two edge lengths. np.isclose with atol 1e-5 is such a location function when the elements are larger than its tolerance.", "quantifier": "for all box sizes, numbers of elements, sides and location functions that pick the nodes of the side", "why_tests_cant": "A test checks one mesh; a face counted twice or missed on another side or aspect ratio goes unseen.", "anchors": ["jax_am/fem/core.py:get_boundary_conditions_inds", "jax_am/fem/core.py:get_face_shape_grads", "jax_am/fem/generate_mesh.py:box_mesh", "jax_am/fem/models.py:compute_surface_area"]}
{"id": "C129", "title": "Tractions of a uniform stress balance it", "statement": "On a HEX8 box_mesh the volume integral of a derivative of any nodal field is the difference of its integrals over the two opposite sides. Hence a solution with uniform stress S whose neumann_bc_info prescribes S n on some sides has zero residual at every node except those of the other sides on which S n is not zero.", "quantifier": "for all box meshes, uniform stresses, internal variables and sets of loaded sides, with quadrature rules exact to degree 2", "why_tests_cant": "A wrong scale or sign of the traction term is hidden in the discretisation error of a numerical test.", "anchors": ["jax_am/fem/core.py:compute_Neumann_integral_vars", "jax_am/fem/core.py:compute_residual_vars", "jax_am/fem/core.py:get_face_shape_grads"]}
{"id": "C130", "title": "Energy and force of the tensile test belong together", "statement": "In homogenization_problem a homogeneous sample under a uniform gradient has the energy volume times psi and the force P e_z times the area; the slope of its energy over a displacement of the top is that force. For any sample in equilibrium the slope of the recorded energy over the relative displacement is the height times the sum of the vertical residual forces at the nodes of the top.", "quantifier": "for all box meshes, moduli, deformations with positive determinant and differentiable families of solutions", "why_tests_cant": "The recorded curves are only plotted; no finite number of steps shows a slope.", "anchors": ["applications/fem/multi_scale/deploy.py:homogenization_problem", "applications/fem/multi_scale/fem_model.py:compute_traction", "applications/fem/multi_scale/fem_model.py:compute_energy"]}
{"id": "C131", "title": "The forming return map keeps every history on or inside the yield surface", "statement": "From the initial state, after any list of deformation gradients with positive determinant, the state has a symmetric positive definite elastic tensor and a hardening variable that never decreased; the Kirchhoff stress of the last step is symmetric, has pressure 82000 (J^2 - 1), its deviator is at most sqrt(2/3)(400 + 18 alpha), with equality when the step hardened; the Cauchy stress written to file is that stress over J. Each step is given in closed form.", "quantifier": "for all histories of deformation gradients with positive determinant", "why_tests_cant": "A test follows one load path; the return map is a piecewise formula of a tensor state that grows with the path.", "anchors": ["applications/fem/forming/single.py:Plasticity.get_maps", "applications/fem/forming/example_disp.py:Plasticity.get_maps", "applications/fem/forming/example_force.py:Plasticity.get_maps"]}
{"id": "C132", "title": "Below yield the forming stress is a function of the last gradient", "statement": "If no step of a history hardened, the Kirchhoff stress is 82000 (J^2-1) I + 80000 dev(F F^T) of the last gradient, whatever came before; a history whose gradients all satisfy 80000 |dev(F F^T)| <= sqrt(2/3) 400 never hardens.", "quantifier": "for all histories", "why_tests_cant": "Path independence compares infinitely many paths.", "anchors": ["applications/fem/forming/single.py:Plasticity.get_maps"]}
{"id": "C133", "title": "Forming histories do not depend on the observer", "statement": "Putting any rotation on top of each gradient of a history turns the first Piola-Kirchhoff stress of the last step by the last rotation and leaves the hardening variable unchanged.", "quantifier": "for all histories and all lists of rotations", "why_tests_cant": "Continuum of rotations and histories.", "anchors": ["applications/fem/forming/single.py:Plasticity.get_maps"]}
{"id": "C134", "title": "A change of volume alone does not cause yielding in the forming model", "statement": "A step that multiplies the gradient by a positive number leaves the hardening variable as it is, and the volume-preserving elastic tensor keeps determinant one. False: f_bar is computed and never used, so every state with a deviatoric elastic strain yields in a large enough pure expansion.", "quantifier": "for all states", "why_tests_cant": "The error is small for the nearly isochoric steps of the examples.", "anchors": ["applications/fem/forming/single.py:Plasticity.get_maps", "applications/fem/forming/example_disp.py:Plasticity.get_maps"]}
{"id": "C135", "title": "Below yield the forming stress derives from an energy", "statement": "There is a function of the gradient whose derivative is the first Piola-Kirchhoff stress on the gradients that do not yield. False of the code, because the elastic tensor is not made volume-preserving.", "quantifier": "for all candidate energy functions", "why_tests_cant": "Absence of a potential is a statement about all functions.", "anchors": ["applications/fem/forming/single.py:Plasticity.get_maps"]}
{"id": "C136", "title": "The forming time loop on a body", "statement": "The variables at a quadrature point after a run are the history of the gradients of the solutions at that point, and the stress written at a step is computed with the variables before the step. The residual has no moment about the deformed positions. A rigid motion on top of a solution turns the residual with it. With only the third component held, as in single.py, any equilibrium can be turned about the third axis and shifted sideways and is still one.", "quantifier": "for all meshes, states and solutions with positive determinants", "why_tests_cant": "Needs all meshes and all solutions; a solver returns one of the non-unique equilibria.", "anchors": ["applications/fem/forming/single.py:Plasticity.update_int_vars_gp", "applications/fem/forming/single.py:Plasticity.compute_stress", "applications/fem/forming/single.py:Plasticity.set_params"]}
{"id": "C137", "title": "Loads of the forming examples", "statement": "The displacement of the top in example_disp.py is -scale Lx (2 d / min(Lx, Ly) + 1e-10), d the distance to the nearest wall, so it agrees with the zero value that the walls prescribe for the same nodes. The last part is false. The load programme rises and falls symmetrically and ends at zero. The traction of example_force.py points down and grows towards the centre.", "quantifier": "for all plate sizes, scales and points", "why_tests_cant": "The mismatch of 1e-10 is below any tolerance of a test.", "anchors": ["applications/fem/forming/example_disp.py:get_dirichlet_top", "applications/fem/forming/example_force.py:get_neumann_top"]}
{"id": "C138", "title": "The L-shape stress constraint follows the largest stress", "statement": "computeConstraints of L_shape.py returns cp*PN-1 for the stress, where PN is a 12-norm and cp a factor that is updated at every call. With n cells, value+1 lies between M/3.5e6/n^(1/12) and n^(1/12) M/3.5e6, M the largest cell stress, after any history of calls. When the function is called repeatedly with the same design, the distance of the value from M/3.5e6-1 is halved at each call.", "quantifier": "for all histories of calls, all designs, all stress fields that are not identically zero", "why_tests_cant": "The factor depends on the whole history of calls.", "anchors": ["applications/fem/top_opt/L_shape.py:computeConstraints", "applications/fem/top_opt/L_shape.py:computeGlobalVolumeConstraintFull"]}
{"id": "C139", "title": "Gradients of the L-shape constraints", "statement": "The gradients that computeConstraints returns are the derivatives of the values that it returns. True for the volume. For the stress the stored factor is updated between the two evaluations: the gradient is the derivative times a positive factor between n^(-1/12) and n^(1/12), and not 1 in general.", "quantifier": "for all histories, designs, cells", "why_tests_cant": "The error is a factor near one that depends on the call history.", "anchors": ["applications/fem/top_opt/L_shape.py:computeConstraints"]}
{"id": "C140", "title": "A satisfied stress constraint keeps the stress within the allowed value", "statement": "If the stress constraint value is not positive, no cell stress exceeds 3.5e6. False: the excess is bounded by the factor n^(1/12). If all stresses are below 3.5e6/n^(1/12) the value is not positive.", "quantifier": "for all histories of calls and designs", "why_tests_cant": "Needs a particular history of the adaptive factor.", "anchors": ["applications/fem/top_opt/L_shape.py:computeGlobalVolumeConstraintFull"]}
{"id": "C141", "title": "Volume constraints of the two-variable designs", "statement": "The constraint of multi_material.py is affine in each variable with slope (4+6 rho2)/(3 n) in the density and 2 rho1/n in the material variable; its value plus one lies between 4/3 and 10/3 of the mean density. The two constraints of plasticity.py are affine with slopes 2/n and 4/n and each depends on one variable. The initial designs have the values -0.3, and (0, 0).", "quantifier": "for all designs", "why_tests_cant": "Needs all designs and all changes.", "anchors": ["applications/fem/top_opt/multi_material.py:computeConstraints", "applications/fem/top_opt/plasticity.py:computeConstraints"]}
{"id": "C142", "title": "Stiffness and mass problems of the vibration example", "statement": "v.K(v) and v.M(v) as computed through the residuals are the sums over cells of the modulus times the plane-stress energy, and of the density times the squared L2 norm. Both forms are symmetric and not negative. Translations and infinitesimal rotations produce no stiffness force. Eigenvalues are not negative and eigenvectors of different eigenvalues are orthogonal in the mass form. The assembled matrices act as the residuals.", "quantifier": "for all meshes, tables, designs and fields", "why_tests_cant": "Needs all meshes and fields.", "anchors": ["applications/fem/top_opt/eigen.py:Stiffness", "applications/fem/top_opt/eigen.py:Mass", "applications/fem/top_opt/eigen.py:eigen_analysis"]}
{"id": "C143", "title": "Derivatives of eigenvalues", "statement": "(v.dK v - lambda v.dM v)/(v.M v), which eigen_analysis returns for each cell, is the derivative of the eigenvalue with respect to the design variable of the cell, along any differentiable family of eigenpairs.", "quantifier": "for all meshes, positive designs, cells and differentiable families of eigenpairs", "why_tests_cant": "A finite difference has an error that hides small mistakes; the statement is about exact derivatives.", "anchors": ["applications/fem/top_opt/eigen.py:eigen_analysis", "applications/fem/top_opt/eigen.py:vAv_fn"]}
{"id": "C144", "title": "The frequency constraint", "statement": "If the second constraint is satisfied, every kept eigenvalue is at least 1e6; if all kept eigenvalues are at least 1e6+ln(n)/10 it is satisfied. Its partial derivatives with respect to the eigenvalues are negative and add up to -1e-6. The gradients returned by computeConstraints are the derivatives of the two returned values when the solver returns differentiable eigenpairs; too few converged pairs raise an exception.", "quantifier": "for all lists of eigenvalues; for all meshes, designs, solver results", "why_tests_cant": "Needs all spectra; logsumexp bounds are attained only in limits.", "anchors": ["applications/fem/top_opt/eigen.py:min_eigen_vals_cstr", "applications/fem/top_opt/eigen.py:computeConstraints"]}
{"id": "C145", "title": "The kept modes are the lowest elastic modes", "statement": "eigen_analysis requests ten pairs nearest to 10 and keeps numbers 3, 4 and 5. If exactly three of the ten eigenvalues are at most 20 these are the three smallest above 20. In general a rigid mode can be among the kept ones: spectrum 5, 0, 0, 0, 100, ...", "quantifier": "for all spectra returned in order of the distance from the target", "why_tests_cant": "The usual spectrum works.", "anchors": ["applications/fem/top_opt/eigen.py:eigen_analysis"]}
{"id": "C146", "title": "The plastic load sequence", "statement": "fwd_pred_seq makes five steps with loads 80, 160, ..., 400. The stress after each step comes from the return map for the difference of the strains; its von Mises value never exceeds 250+100 theta2 of the cell. If each step is in equilibrium then the stress after step i works on every admissible displacement as the load 80 i does, and J_total is the work of the final stress on the final displacement. A design of the wrong length raises ValueError.", "quantifier": "for all meshes, designs, solvers", "why_tests_cant": "Needs all meshes, designs and load paths.", "anchors": ["applications/fem/top_opt/plasticity.py:fwd_pred_seq", "applications/fem/top_opt/plasticity.py:J_total", "applications/fem/top_opt/plasticity.py:Plasticity.update_stress_strain", "applications/fem/top_opt/plasticity.py:Plasticity.get_maps"]}
{"id": "C147", "title": "inspect shows the final stress", "statement": "After fwd_pred_seq, inspect returns the mean norm of the final stresses. False: it reads the history variables of the last step, that is the stress of the fourth step, which does 4/5 of the work of the final stress on every admissible displacement.", "quantifier": "for all meshes and designs", "why_tests_cant": "The picture looks plausible.", "anchors": ["applications/fem/top_opt/plasticity.py:Plasticity.inspect", "applications/fem/top_opt/plasticity.py:output_sol"]}
{"id": "C148", "title": "The traction left in the object does not change the derivative", "statement": "During back-propagation the object holds the traction of the last step for all steps (the comment in the code calls this a bug that does not affect the result). The cotangents that implicit_vjp returns are the same for any two tractions.", "quantifier": "for all meshes, loads, solutions, parameters, cotangents, linear solvers", "why_tests_cant": "Needs all problems; equality is exact.", "anchors": ["applications/fem/top_opt/plasticity.py:fwd_pred_seq", "jax_am/fem/solver.py:implicit_vjp"]}
{"id": "C149", "title": "LinearPoisson on a box mesh is solvable exactly when every component is fixed somewhere", "statement": "For LinearPoisson on a box mesh of HEX8 elements with any source, tractions and Dirichlet conditions, every linear system that solver forms (with PETSc or jax solvers) has a solution for every right-hand side if and only if each component has a Dirichlet condition at some node. In that case solver(linear=True) with exact linear algebra returns the field that takes the Dirichlet values and makes the residual vanish at all other components, and no other field does.", "quantifier": "for all box sizes, element counts, numbers of components, loads, conditions, guesses, preconditioner flags", "why_tests_cant": "Existence and uniqueness for all meshes and all conditions.", "anchors": ["jax_am/fem/models.py:LinearPoisson", "jax_am/fem/solver.py:solver", "jax_am/fem/solver.py:get_A_fn", "jax_am/fem/generate_mesh.py:box_mesh"]}
{"id": "C150", "title": "LinearElasticity on a box mesh with one clamped side has exactly one solution", "statement": "For LinearElasticity on a box mesh of HEX8 elements, if all three components are fixed at the nodes of one side, the linear systems are solvable and solver(linear=True) with exact linear algebra returns the only field that takes the Dirichlet values and makes the residual vanish elsewhere. If one component is fixed nowhere, the systems are singular.", "quantifier": "for all box sizes, element counts, loads, conditions, sides", "why_tests_cant": "Existence and uniqueness for all meshes; needs a discrete rigidity argument.", "anchors": ["jax_am/fem/models.py:LinearElasticity", "jax_am/fem/solver.py:solver", "jax_am/fem/generate_mesh.py:box_mesh"]}
{"id": "C151", "title": "The discrete solution minimises the potential energy", "statement": "For LinearPoisson and LinearElasticity under the conditions of C149 and C150, the discrete solution has the least total potential energy (half the energy of the stress minus the work of body force and tractions) among all fields that take the Dirichlet values, and it is the only one with that energy.", "quantifier": "for all box meshes, loads, conditions and competing fields", "why_tests_cant": "Compares with infinitely many fields.", "anchors": ["jax_am/fem/models.py:LinearPoisson", "jax_am/fem/models.py:LinearElasticity", "jax_am/fem/core.py:FEM.compute_residual"]}
{"id": "C152", "title": "The constrained matrix is invertible for these problems", "statement": "Under the conditions of C149 and C150 the row-eliminated matrix of get_A_fn is invertible at every point, so the hypothesis of the theorems about implicit_vjp (C52 and others) holds for these problems.", "quantifier": "for all box meshes, loads, conditions, points of linearisation", "why_tests_cant": "Invertibility for all meshes.", "anchors": ["jax_am/fem/solver.py:get_A_fn", "jax_am/fem/solver.py:implicit_vjp"]}
{"id": "C153", "title": "The forward map of the source inference is total and linear", "statement": "On every box mesh with the script's zero values on the six sides, fwd_pred(params) returns the discrete solution of the Poisson problem with the nodal sources params; there is one matrix G with sol[n] = sum_j G[n,j] params[j] for all params, and sol is zero at every node on the six sides.", "quantifier": "for all box meshes, sources, solver environments with exact linear solvers", "why_tests_cant": "Linearity and totality over all sources and meshes.", "anchors": ["applications/fem/full_field_infer/poisson.py:LinearPoisson", "applications/fem/full_field_infer/poisson.py:param_id", "jax_am/fem/solver.py:ad_wrapper"]}
{"id": "C154", "title": "The gradient of the misfit is exact and its Taylor remainder is a square", "statement": "jax.grad(J_total), through the implicit rule of ad_wrapper, satisfies J(p + d) = J(p) + grad(p).d + sum over observed nodes of (G d)[n]^2 for all p and d; the gradient vanishes exactly at the global minima; in taylor_tests every r_first is h^2 times one constant, five times the 'second order reference' at every h, and r_zero is at most h |grad.1| plus that.", "quantifier": "for all box meshes, observed nodes, observed values, sources, directions", "why_tests_cant": "The identity holds for infinitely many directions; a Taylor test sees four step sizes in one direction.", "anchors": ["applications/fem/full_field_infer/poisson.py:param_id", "applications/fem/full_field_infer/poisson.py:taylor_tests", "applications/fem/full_field_infer/utils.py:plot_results", "jax_am/fem/solver.py:implicit_vjp"]}
{"id": "C155", "title": "The observations never determine the source", "statement": "There is a source field d that is not zero with sol(p + t d) = sol(p) at every node for all p and t, so J_total cannot tell the two apart even if every node is observed. If the source of problem_fwd is affine, its values at the nodes are a source with J_total exactly 0.", "quantifier": "for all box meshes, sources, observation sets", "why_tests_cant": "Existence statement about a null space; the script has only one run.", "anchors": ["applications/fem/full_field_infer/poisson.py:param_id", "applications/fem/full_field_infer/poisson.py:LinearPoisson"]}
{"id": "C156", "title": "compute_L2 is the square of a norm", "statement": "compute_L2(sol) is the integral of the square of the interpolated field by the element quadrature, never negative, and on box meshes zero only for the zero field; hence a relative error of 0 means that the fields agree at every node.", "quantifier": "for all box meshes and nodal fields", "why_tests_cant": "Definiteness over all fields.", "anchors": ["applications/fem/full_field_infer/poisson.py:LinearPoisson.compute_L2", "jax_am/fem/core.py:FEM.get_mass_kernel"]}
{"id": "C157", "title": "The optimiser's wrappers agree only if called in step", "statement": "For every sequence of calls in which each derivative_wrapper(x) comes after an objective_wrapper at the same x with no other objective in between, the wrappers reply with the value and gradient at x. Otherwise derivative_wrapper ignores x and returns the gradient at the last objective's point, and before any objective it raises AttributeError.", "quantifier": "for all call sequences, objectives and points", "why_tests_cant": "All call sequences of an optimiser.", "anchors": ["applications/fem/full_field_infer/poisson.py:param_id"]}
{"id": "C158", "title": "The inverse example sees modulus and density only as a product", "statement": "If E*rho at every quadrature point and the two load factors are all multiplied by a, with scale_d unchanged, the residual of every orientation-preserving displacement is multiplied by a and (a nonzero) the solutions stay the same. With a = 1, moving a factor between E and rho changes no residual at all, so E and rho cannot be told apart.", "quantifier": "for all meshes, parameters and displacements", "why_tests_cant": "Universal over parameter vectors and displacement fields.", "anchors": ["demos/fem/inverse/example.py:HyperElasticity.get_tensor_map", "demos/fem/inverse/example.py:HyperElasticity.set_params"]}
{"id": "C159", "title": "scale_d only translates the solution", "statement": "Changing scale_d from d to d' turns every solution u into the solution u + (d'-d)*Lz in the third direction, and back; the residual does not change under such translations.", "quantifier": "for all meshes, parameters and displacements", "why_tests_cant": "Holds for every solution of a nonlinear problem.", "anchors": ["demos/fem/inverse/example.py:get_dirichlet_bottom", "demos/fem/inverse/example.py:HyperElasticity.set_params"]}
{"id": "C160", "title": "The gradient of the inverse example satisfies two exact identities", "statement": "The gradient g returned by the implicit rule for any cotangent satisfies E*g_E = sum of rho*g_rho over the quadrature points, and at a solution E*g_E + scale_n*g_n + scale_s*g_s = 0.", "quantifier": "for all meshes, parameters, cotangents and regular orientation-preserving states", "why_tests_cant": "Identities of adjoint gradients for all cotangents.", "anchors": ["demos/fem/inverse/example.py:composed_fn", "jax_am/fem/solver.py:implicit_vjp", "jax_am/fem/solver.py:ad_wrapper"]}
{"id": "C161", "title": "The derivative in scale_d and its difference quotient", "statement": "The implicit rule's derivative with respect to scale_d is exactly Lz times the sum of the vertical cotangents. The script's difference quotient for scale_d, evaluated on the translated solution, exceeds it by exactly N*h*d*Lz^2.", "quantifier": "for all meshes, parameters, cotangents, step sizes h and regular states", "why_tests_cant": "Exact relation between AD and finite difference for every h.", "anchors": ["demos/fem/inverse/example.py:composed_fn", "jax_am/fem/solver.py:implicit_vjp"]}
{"id": "C162", "title": "Without loads the block is lifted and its stiffness is invertible", "statement": "On box meshes with positive quadrature weights and positive E*rho, the uniformly lifted block preserves orientation, is a solution when both load factors are zero, and the stiffness matrix with the boundary rows replaced is invertible there, so the implicit rule is defined.", "quantifier": "for all box meshes, positive moduli and lifts", "why_tests_cant": "Invertibility for all meshes and parameter fields.", "anchors": ["demos/fem/inverse/example.py:HyperElasticity.get_tensor_map", "jax_am/fem/solver.py:implicit_vjp"]}
{"id": "C163", "title": "The loads of the inverse example reach the held nodes", "statement": "On a box of sides Lx, Ly, Lz the nodal forces of any displacement sum to (-100*scale_s*Lx*Ly*Lz, 0, 100*scale_n*Lx*Ly), and at a solution this total sits on the nodes held at the bottom.", "quantifier": "for all box meshes, parameters and displacements", "why_tests_cant": "All displacement fields and mesh sizes.", "anchors": ["demos/fem/inverse/example.py:get_body_force", "demos/fem/inverse/example.py:get_neumann_top", "jax_am/fem/core.py:FEM.compute_Neumann_integral_vars"]}
{"id": "C164", "title": "The hyperelastic energy has the modulus and ratio it is given", "statement": "The stress of psi(F, E, nu) vanishes at rest and its derivative there is Hooke's law with Young's modulus E and Poisson ratio nu; a stretch with lateral contraction nu needs exactly E per unit strain and no lateral stress.", "quantifier": "for all E, nu with nu not -1 or 1/2, and all displacement gradients", "why_tests_cant": "Derivative at rest for all gradients and moduli.", "anchors": ["applications/fem/multi_scale/fem_model.py:HyperElasticity.maps_rve"]}
{"id": "C165", "title": "Dynamic relaxation returns a balanced state with the boundary values", "statement": "When DynamicRelaxSolve reports convergence with tolerance below one, the result equals the given boundary values on the fixed unknowns, no residual component exceeds the tolerance, and at least one step was taken. For tolerances of one and above this fails: the guess comes back untouched, whatever its residual.", "quantifier": "for all force and stiffness functions vanishing on the fixed unknowns, all starts, tolerances and iteration counts", "why_tests_cant": "All nonlinear force functions and all lengths of run.", "anchors": ["applications/fem/buckling/dr.py:DynamicRelaxSolve"]}
{"id": "C166", "title": "Dynamic relaxation of a linear problem is stable", "statement": "For a symmetric positive definite linear problem, at every step the velocities in the mass norm and the energy distance of the half-step position from equilibrium are bounded by the energy distance of the start, although the damping is chosen adaptively and the masses are absolute row sums.", "quantifier": "for all sizes, supports, symmetric definite matrices, loads, starts and numbers of steps", "why_tests_cant": "A bound along runs of any length for every matrix.", "anchors": ["applications/fem/buckling/dr.py:DynamicRelaxSolve", "applications/fem/buckling/dr.py:calC"]}
{"id": "C167", "title": "Dynamic relaxation of a linear problem ends", "statement": "For a symmetric positive definite linear problem and every tolerance between zero and one the loop ends; it ends in balance to the tolerance, or because all velocities vanish in a state out of balance, where the damping is a quotient of zeros. The second end does occur: there is a spring for which the run fails.", "quantifier": "for all sizes, supports, symmetric definite matrices, loads, starts and tolerances", "why_tests_cant": "Termination for every tolerance and every matrix.", "anchors": ["applications/fem/buckling/dr.py:DynamicRelaxSolve"]}
{"id": "C168", "title": "The copy of dynamic relaxation in the solver module iterates", "statement": "dynamic_relax_solve, given a starting guess, would relax it. This is false: it returns the guess unchanged when that is in balance, and otherwise raises TypeError in its first pass (AssertionError when a row of the matrix is zero).", "quantifier": "for all problems, residual functions, tolerances and guesses", "why_tests_cant": "All problems and guesses; and the function already fails before, because the guess is read before it is bound.", "anchors": ["jax_am/fem/solver.py:dynamic_relax_solve", "jax_am/fem/solver.py:printInfo"]}
{"id": "C169", "title": "Manufactured solutions of the Poisson problem are reproduced at the nodes", "statement": "Take u as a sum of cubics in one coordinate each, minus its Laplacian as the source of LinearPoisson on a box mesh of eight-node hexahedra, Dirichlet conditions holding u, and du/dn as Neumann condition on the sides that are not held. Then the residual of the nodal values of u vanishes at every component without Dirichlet condition, and solver returns exactly the nodal values of u.", "quantifier": "for all numbers of cells, side lengths, numbers of components, cubics and choices of held and loaded sides", "why_tests_cant": "All meshes and all solutions of a family; a test sees a few meshes up to a tolerance.", "anchors": ["applications/fem/convergence_rate/example.py:problem", "jax_am/fem/models.py:LinearPoisson", "jax_am/fem/core.py:FEM", "jax_am/fem/solver.py:solver"]}
{"id": "C170", "title": "The measured errors have order two and one", "statement": "For a quadratic solution that is exact at the nodes of a box mesh with cells h1 x h2 x h3, compute_l2_norm_error is sqrt(volume * sum_k (sum_d u_k,dd h_d^2/12)^2), and compute_h1_norm_error adds sqrt(volume * sum_k sum_d u_k,dd^2 h_d^2/12). With m times as many cells in every direction the first is m^2 times smaller and the second at least m times and at most m^2 times smaller.", "quantifier": "for all box meshes of eight-node hexahedra, refinement factors and sums of quadratics in one coordinate each", "why_tests_cant": "An exact rate for all meshes; the example fits a line through a few points.", "anchors": ["jax_am/fem/models.py:compute_l2_norm_error", "jax_am/fem/models.py:compute_h1_norm_error", "applications/fem/convergence_rate/example.py:exp"]}
{"id": "C171", "title": "The Poisson solver obeys the maximum principle on meshes of cubes", "statement": "On a box mesh of eight-node hexahedra with cubic cells, when source and boundary fluxes of LinearPoisson are nowhere positive, no nodal value of the solver's result exceeds the largest prescribed value; when they are nowhere negative, none falls below the smallest prescribed value.", "quantifier": "for all numbers of cells, sizes, Dirichlet conditions (at least one node per component), sources, fluxes and numbers of components", "why_tests_cant": "All data and all meshes; the property is lost without notice when the cells are not cubes.", "anchors": ["jax_am/fem/models.py:LinearPoisson", "jax_am/fem/core.py:FEM.get_laplace_kernel", "jax_am/fem/core.py:FEM.compute_Neumann_integral_vars", "jax_am/fem/solver.py:solver"]}
{"id": "C172", "title": "The maximum principle holds for every cell shape", "statement": "The bounds of C171 would hold on every box mesh. They do not: on every box of 2 x 2 x 2 cells that are not cubes, without sources or fluxes, there are Dirichlet values between 0 and 1 on the whole surface for which the solver's result is negative in the middle (-1/6 for cells of 1 x 1/2 x 1/2).", "quantifier": "for all side lengths that do not make the cells cubes", "why_tests_cant": "It is a statement about all side lengths; the error is small and looks like round-off in a plot.", "anchors": ["jax_am/fem/models.py:LinearPoisson", "jax_am/fem/solver.py:solver", "jax_am/fem/generate_mesh.py:box_mesh"]}
{"id": "C173", "title": "A location function with tolerance 1e-5 picks exactly a side if and only if the cells are thicker than the tolerance", "statement": "On a box mesh, np.isclose(point[d], x, atol=1e-5) with x the coordinate of a side is true for exactly the nodes of that side if and only if the cells are thicker than 1e-5 (1 + x) in that direction.", "quantifier": "for all numbers of cells, side lengths, directions and both sides", "why_tests_cant": "A test fixes one mesh; the tolerance is absolute, so refining or rescaling a working example silently changes the set of faces.", "anchors": ["demos/fem/thermal_mechanical/example.py:top", "demos/fem/thermal_mechanical/example.py:bottom", "jax_am/fem/generate_mesh.py:box_mesh"]}
{"id": "C174", "title": "The top of the thermal demo is the top of the slab", "statement": "The flux given for top would enter through the top of the slab, so that a uniform flux g would bring the heat g Lx Ly dt. It does not when the cells are thinner than the tolerance: with a thickness between half the tolerance and the tolerance, all six faces of every cell of the upper layer and the upper faces of the layer below are selected (7 Nx Ny faces), interior faces twice, and the heat is g dt (3 Lx Ly + 2 h (Nx Ly + Ny Lx)): seven times too much on the mesh of the demo. With thicker cells the heat is right.", "quantifier": "for all box meshes with cells in that range of thickness, fluxes, time steps, old and new temperatures", "why_tests_cant": "The computed temperatures look plausible; only an exact heat balance over all faces shows the factor.", "anchors": ["demos/fem/thermal_mechanical/example.py:top", "demos/fem/thermal_mechanical/example.py:Thermal", "jax_am/fem/core.py:FEM.get_boundary_conditions_inds"]}
{"id": "C175", "title": "Every thermal time step and every damage step on hexahedra has exactly one solution and the solver finds it", "statement": "On any mesh of eight-node hexahedra that are not turned inside out, the linear system of the implicit thermal step (dt > 0) and of the phase-field damage problem (history not negative) is regular if and only if every node belongs to a cell or is fixed; then the solver with linear=True returns the only solution of the discrete problem, and Newton's method stops after at most one step with every residual component at most 1e-6.", "quantifier": "for all such meshes, old temperatures or histories, fluxes, sources, Dirichlet conditions (also none), initial guesses and exact linear solvers", "why_tests_cant": "Regularity concerns every mesh and every right-hand side; a mesh file with an unused node makes the same script fail.", "anchors": ["demos/fem/thermal_mechanical/example.py:Thermal", "demos/fem/phase_field_fracture/example.py:PhaseField", "jax_am/fem/core.py:FEM.compute_newton_vars", "jax_am/fem/solver.py:solver"]}
{"id": "C176", "title": "Heating from the top never cools the material", "statement": "Starting from 300 everywhere with the bottom held at 300 and the laser on, every temperature after one step would be at least 300. It is not: when 90 dt < 8440 588 h^2 (h the height of the cells, as in the demo), the signs of the change alternate from layer to layer, and a node in the first layer below the surface is colder than 300.", "quantifier": "for all box meshes with cells above the tolerance, laser positions, laser powers and time steps below that bound", "why_tests_cant": "Smaller time steps, the usual remedy, make it worse; a test at one time step shows either behaviour.", "anchors": ["demos/fem/thermal_mechanical/example.py:Thermal", "demos/fem/thermal_mechanical/example.py:get_thermal_neumann_top", "jax_am/fem/core.py:FEM.get_mass_kernel", "jax_am/fem/solver.py:solver"]}
{"id": "C177", "title": "Thermal steps without fluxes are unconditionally stable", "statement": "In any sequence of thermal steps without boundary fluxes and with Dirichlet values 300, the integral of the squared distance of the temperature from 300 never exceeds its initial value.", "quantifier": "for all meshes of hexahedra, time steps, numbers of steps, initial temperatures and sets of fixed nodes", "why_tests_cant": "Stability concerns arbitrarily many steps of any size.", "anchors": ["demos/fem/thermal_mechanical/example.py:Thermal", "jax_am/fem/core.py:FEM.get_mass_kernel", "jax_am/fem/core.py:FEM.get_laplace_kernel"]}
{"id": "C178", "title": "LinearPoisson on any Lagrange mesh is solvable exactly when every node is linked to a fixed node", "statement": "For a LinearPoisson problem on a mesh of TET4, TET10, HEX8, HEX27, QUAD4, TRI3 or TRI6 cells with positive Jacobians, the linear system of the solver has a solution for every right-hand side if and only if, for every component, from each node one can walk through cells to a node where a Dirichlet condition fixes this component. The solver then returns the only discrete solution, and this solution has the least potential energy of all fields with the Dirichlet values.", "quantifier": "for all meshes, element types, numbers of components, Dirichlet sets and values, sources, fluxes, guesses and solver options", "why_tests_cant": "The claim is an equivalence over all meshes, including unstructured ones with several parts; a test fixes one mesh and one set of conditions.", "anchors": ["jax_am/fem/models.py:LinearPoisson", "jax_am/fem/core.py:FEM.get_laplace_kernel", "jax_am/fem/solver.py:solver", "jax_am/fem/basis.py:get_shape_vals_and_grads"]}
{"id": "C179", "title": "Thermal and damage steps on any Lagrange mesh are solvable exactly when every node belongs to a cell or is fixed", "statement": "A time step of the Thermal class, and the damage problem of the phase field fracture demo with a non-negative history, on a mesh of any Lagrange element: the linear system is regular if and only if each node belongs to a cell or is fixed. The solver then returns the only discrete solution, the Newton branch needs at most one step, and without fluxes the integral of the squared distance from 300 never grows.", "quantifier": "for all meshes of the seven Lagrange types, time steps, old temperatures, histories, fluxes and Dirichlet sets", "why_tests_cant": "It holds for every mesh and every element type, also those whose rule does not integrate the mass term exactly, and for every step size.", "anchors": ["demos/fem/thermal_mechanical/example.py:Thermal", "demos/fem/phase_field_fracture/example.py:PhaseField", "jax_am/fem/core.py:FEM.get_mass_kernel", "jax_am/fem/solver.py:solver"]}
{"id": "C180", "title": "LinearElasticity is solvable exactly when the supports leave no motion that is rigid on every cell", "statement": "For LinearElasticity on a mesh of any Lagrange element, the linear system can only be regular if the fixed components leave no non-zero field that is a small rigid motion on every cell. On linear triangles and tetrahedra this is also enough, and the solver returns the only discrete solution. Tetrahedra are braced if from the clamped nodes every node is reached through tetrahedra with three nodes reached before; two tetrahedra that share only an edge are not, although a Poisson problem on them can be solved.", "quantifier": "for all meshes, Dirichlet sets and values, loads, guesses and solver options", "why_tests_cant": "Hinges and loose parts appear in single meshes only; the equivalence speaks about all of them.", "anchors": ["jax_am/fem/models.py:LinearElasticity", "jax_am/fem/core.py:FEM.get_laplace_kernel", "jax_am/fem/solver.py:solver"]}
{"id": "C181", "title": "With periodic conditions the multiplier matrix of a Poisson problem is regular exactly when the constraints are independent and every node is anchored", "statement": "LinearPoisson on a mesh of any Lagrange element with Dirichlet and periodic conditions: the matrix with Lagrange multipliers is regular if and only if the constraints are linearly independent and from each node one can walk through cells and periodic pairs to a node with a Dirichlet value. Constraints are independent if no component is held twice and the first node of each pair is in no other constraint. They are not if a component is held twice, if both nodes of a pair are held, or if four pairs form a ring.", "quantifier": "for all meshes of the seven Lagrange types, Dirichlet and periodic conditions, numbers of components, scaling factors and loads", "why_tests_cant": "The equivalence covers all meshes and all combinations of conditions; a singular matrix shows up in a test only as slow or failing convergence of an iterative solver.", "anchors": ["jax_am/fem/solver.py:solver_lagrange_multiplier", "jax_am/fem/solver.py:get_A_fn_and_res_aug", "jax_am/fem/core.py:FEM.periodic_boundary_conditions", "jax_am/fem/models.py:LinearPoisson"]}
{"id": "C182", "title": "The periodic solver returns the only equilibrium that meets the constraints, also when the constraints are redundant", "statement": "For a linear problem with periodic conditions whose energy is positive on all non-zero changes that keep the constraints: the linear system of each step has a solution if and only if some field meets all constraints. The solver then returns a field that meets the constraints and is in equilibrium with multipliers; it is the only one, and it has the least potential energy of all fields that meet the constraints. A field is in equilibrium with some multipliers if and only if its residual does no work on changes that keep the constraints. All this needs no independence of the constraints.", "quantifier": "for all linear problems, meshes, Dirichlet and periodic conditions, loads, starting vectors, scaling factors and guesses", "why_tests_cant": "It is about all linear problems and all redundant sets of constraints, and about uniqueness among all fields.", "anchors": ["jax_am/fem/solver.py:solver_lagrange_multiplier", "jax_am/fem/solver.py:get_A_fn_and_res_aug", "jax_am/fem/core.py:FEM.periodic_boundary_conditions"]}
{"id": "C183", "title": "The linear systems of the shipped periodic problems are regular", "statement": "In the periodic Poisson demo and in the representative cell of the multi-scale example the matrix with Lagrange multipliers is regular. This is false: in the demo the corner of the square and its periodic partner both have a Dirichlet value, and in the cell the corners of the box are tied in rings, so the matrix is singular for every mesh and at every state.", "quantifier": "for all meshes of the demo with a node at the origin, all box meshes of the cell, all materials and states", "why_tests_cant": "An iterative solver can return a usable vector for a singular consistent system, so runs do not show it.", "anchors": ["applications/fem/periodic_bc/example.py:problem", "applications/fem/multi_scale/rve.py:rve_problem", "jax_am/fem/solver.py:solver_lagrange_multiplier"]}
{"id": "C184", "title": "The periodic Poisson demo returns the periodic field of least energy", "statement": "The demo solves for a field that vanishes at the bottom and the top of the square and takes equal values at nodes opposite on the left and the right side, of least potential energy under the given source. As shipped, with use_petsc=True, the run raises UnboundLocalError. With use_petsc=False and a mesh of six-node triangles in which each node is linked to the bottom or the top, the solver returns exactly this field.", "quantifier": "for all meshes, starting values and preconditioner settings", "why_tests_cant": "The result holds for every mesh the mesher may produce, and compares the returned field with all competitors.", "anchors": ["applications/fem/periodic_bc/example.py:problem", "jax_am/fem/solver.py:solver"]}
{"id": "C185", "title": "The corrected velocity is free of divergence", "statement": "After velocity_eqn.update the discrete divergence of the velocity in the window is zero in every cell when the pressure equation was solved exactly. (False: what remains is dt/rho times the fourth differences of the pressure, and it vanishes only if the predicted velocity was free of divergence already.)", "quantifier": "for all windows, velocities and exact pressures", "why_tests_cant": "The remaining divergence is an identity over all fields and window sizes; a run only shows small numbers.", "anchors": ["jax_am/cfd/cfd_am.py:velocity_eqn", "jax_am/cfd/cfd_am.py:poisson"]}
{"id": "C186", "title": "The pressure correction never adds kinetic energy", "statement": "With an exact pressure the sum of squares of the corrected velocity is at most that of the predicted velocity minus (dt/rho)^2 times the squared pressure differences over the inner faces; they are equal exactly if the predicted velocity is free of divergence.", "quantifier": "for all windows, velocities, time steps and densities", "why_tests_cant": "An inequality over all velocity fields and window sizes.", "anchors": ["jax_am/cfd/cfd_am.py:velocity_eqn", "jax_am/cfd/cfd_am.py:poisson"]}
{"id": "C187", "title": "The pressure solve is well posed up to a constant that the update does not see", "statement": "The pressure equation has a solution for each predicted velocity, two solutions differ by a constant, and the corrected velocity and the stored pressure gradient do not depend on the choice. solver_linear with an exact linear solver returns a solution although the matrix is singular.", "quantifier": "for all windows, velocities and temperatures at the top", "why_tests_cant": "Existence for a singular system for all right-hand sides the driver can produce.", "anchors": ["jax_am/cfd/cfd_am.py:velocity_eqn", "jax_am/cfd/cfd_am.py:solver_linear"]}
{"id": "C188", "title": "The velocity prediction is well posed and gains energy only from surface tension", "statement": "For positive step, density and viscosity and non-negative liquid fractions each component of the predicted velocity exists and is unique. Its sum of squares plus 2 dt/rho times the damping work is at most the sum of squares of the explicitly moved velocity plus the work of the surface tension at the top. A solid cell is slowed by the factor 1 + 2e12 dt. The whole update with exact solves obeys the same energy bound.", "quantifier": "for all windows, fields, liquid fractions and exact linear solvers", "why_tests_cant": "Unconditional stability is a claim about all states and time steps.", "anchors": ["jax_am/cfd/cfd_am.py:velocity_eqn", "jax_am/cfd/cfd_am.py:solver_linear"]}
{"id": "C189", "title": "Solid cells in the window stay at rest", "statement": "A cell with liquid fraction 0 that is at rest, without convection and pressure gradient, is still at rest after velocity_eqn.update up to the damping. (False: the correction gives it about a quarter of the velocity of the liquid cell beside it.)", "quantifier": "for all windows and states", "why_tests_cant": "Needs an exact account of both solves; simulations show a small velocity without telling its source.", "anchors": ["jax_am/cfd/cfd_am.py:velocity_eqn"]}
{"id": "C190", "title": "Growing flux laws determine the solution", "statement": "A LinearPoisson problem on any Lagrange mesh, with boundary fluxes (cauchy_bc_info) that do not decrease when the value grows, has at most one discrete solution if every node is linked to a fixed node or to a cell with a face whose flux strictly grows. Otherwise two solutions differ by one constant on all nodes linked to each other.", "quantifier": "for all meshes of Lagrange elements with non-negative face weights, all loads, Dirichlet conditions and monotone flux laws", "why_tests_cant": "Uniqueness speaks about all solutions; a run finds one.", "anchors": ["jax_am/fem/core.py:FEM.compute_residual", "jax_am/fem/core.py:FEM.compute_face", "jax_am/fem/core.py:FEM.get_cauchy_kernel", "jax_am/fem/models.py:LinearPoisson"]}
{"id": "C191", "title": "Heat exchange at the boundary: when it can be solved and what solver returns", "statement": "With fluxes h*u + g, h >= 0, on the Cauchy faces, the matrix of LinearPoisson is invertible if and only if every node is linked to a fixed node or to a cell with a face of positive h; then solver returns the one discrete solution, whatever the initial guess.", "quantifier": "for all meshes of Lagrange elements with non-negative face weights, all loads, coefficients and Dirichlet conditions (possibly none)", "why_tests_cant": "The equivalence covers all meshes; tests try connected meshes with fixed sides.", "anchors": ["jax_am/fem/core.py:FEM.newton_update", "jax_am/fem/core.py:FEM.compute_face", "jax_am/fem/solver.py:solver", "jax_am/fem/models.py:LinearPoisson"]}
{"id": "C192", "title": "The Cauchy example has one solution", "statement": "The problem of the Cauchy example (flux 5*u^2 on the left and right, u = 1 on top and bottom) has at most one discrete solution. (False: on a square of three triangles it has two. Two solutions whose values on the sides have a non-negative sum are equal.)", "quantifier": "for all triangle meshes whose nodes are linked to top or bottom", "why_tests_cant": "Newton's method from the shipped guess finds one solution and does not show the others.", "anchors": ["applications/fem/cauchy_bc/example.py:problem", "applications/fem/cauchy_bc/example.py:cauchy_map", "jax_am/fem/core.py:FEM.compute_face"]}
{"id": "C193", "title": "The cylinder flow keeps its mass", "statement": "In the flow past a cylinder the sum of all populations is the same after any number of steps; from the initial state of the script it is rho0*Ny*Nx.", "quantifier": "for all grid sizes, relaxation times, obstacles, noise and numbers of steps that do not end in nan", "why_tests_cant": "A run shows the mass of one obstacle up to rounding.", "anchors": ["jax_am/lbm/experiments/cylinder.py:main"]}
{"id": "C194", "title": "Only the cylinder takes momentum", "statement": "One step changes the total momentum by minus twice the momentum that drifts into the cells of the obstacle; without obstacle both components are conserved for ever.", "quantifier": "for all grid sizes, relaxation times, obstacles and states", "why_tests_cant": "The force on the cylinder is not computed by the script, so nothing compares it with the loss of momentum.", "anchors": ["jax_am/lbm/experiments/cylinder.py:main"]}
{"id": "C195", "title": "What enters the cylinder returns to where it came from", "statement": "A population that moves from a cell into the obstacle is found, after the next drift, in the same cell with the opposite velocity and the same value.", "quantifier": "for all grid sizes, obstacles, states, cells and directions", "why_tests_cant": "A wrong column in the list of reversed directions gives a flow that still looks plausible.", "anchors": ["jax_am/lbm/experiments/cylinder.py:main"]}
{"id": "C196", "title": "Rest and uniform flow are steady states", "statement": "A fluid at rest with density r stays at rest around any obstacle; a uniform equilibrium with any velocity stays as it is when there is no obstacle.", "quantifier": "for all grid sizes, relaxation times, densities, velocities and numbers of steps", "why_tests_cant": "Needs all obstacles and all numbers of steps.", "anchors": ["jax_am/lbm/experiments/cylinder.py:main"]}
{"id": "C197", "title": "Without asymmetric noise no vortices are shed", "statement": "If obstacle and state are symmetric about the axis, they remain so for ever and the velocity across the axis is zero; the cylinder of the script and its initial state without noise are symmetric.", "quantifier": "for all grid sizes, relaxation times and numbers of steps that do not end in nan", "why_tests_cant": "Rounding breaks the symmetry in a run; the exact statement is about all steps.", "anchors": ["jax_am/lbm/experiments/cylinder.py:main"]}
{"id": "C198", "title": "Populations of the cylinder flow stay non-negative", "statement": "Non-negative populations are non-negative after a step. (False: the first step of the script without noise makes a population of the corner cell negative. True for tau >= 1 and speeds up to the speed of sound.)", "quantifier": "for all states", "why_tests_cant": "The script plots only the vorticity; negative populations go unnoticed.", "anchors": ["jax_am/lbm/experiments/cylinder.py:main"]}
{"id": "C199", "title": "The explicit loops assemble the Newton matrix", "statement": "For linear elasticity in three dimensions the lists inds_I, inds_J, vals that assemble appends are the lists I, J, V that newton_update stores, entry by entry and in the same order, at every solution; there are cells * (nodes * vec)^2 of them.", "quantifier": "for all well-formed meshes, element tables, loads and solutions, and all exact element Jacobians", "why_tests_cant": "The experiment only times the assembly; comparing it with automatic differentiation on one mesh says nothing about others.", "anchors": ["jax_am/fem/experiments/numba_assembly.py:assemble", "jax_am/fem/experiments/numba_assembly.py:stress", "jax_am/fem/core.py:compute_newton_vars"]}
{"id": "C200", "title": "The residual from the triplets is the residual of the core", "statement": "NumbdaLaplace.compute_residual returns the residual that FEM.compute_residual returns for the same elastic problem, at every node and component.", "quantifier": "for all well-formed meshes, loads and solutions", "why_tests_cant": "The two computations share no code on the stiffness side; agreement must hold for every mesh and field.", "anchors": ["jax_am/fem/experiments/numba_assembly.py:NumbdaLaplace.compute_residual", "jax_am/fem/core.py:compute_residual"]}
{"id": "C201", "title": "The matrix of the explicit loops is the elastic energy", "statement": "y^T A x is the sum over cells and quadrature points of JxW times the double product of grad y with the stress of grad x; hence A is symmetric, non-negative for non-negative weights, and sends translations to zero when the gradients of the shape functions sum to zero.", "quantifier": "for all connectivities and all tables of gradients and weights", "why_tests_cant": "Symmetry and definiteness concern all vectors and all meshes.", "anchors": ["jax_am/fem/experiments/numba_assembly.py:assemble", "jax_am/fem/experiments/numba_assembly.py:construct_phi_grad"]}
{"id": "C202", "title": "Walls of the melt pool window are at rest and the surface balances thermocapillary stress", "statement": "With the conditions of get_vel_bc_fn the velocity on the five walls and the normal velocity on the surface are zero, the viscous shear at the surface is Dgamma/DT times the central difference of the surface temperature times the liquid fraction, and the form used by the Poisson solver carries the same values times the viscosity.", "quantifier": "for all temperature and velocity fields, windows and materials", "why_tests_cant": "The conditions are closures inside the solver and never compared with each other.", "anchors": ["jax_am/cfd/cfd_am.py:AM_3d.get_vel_bc_fn", "jax_am/cfd/cfd_am.py:get_GC_values"]}
{"id": "C203", "title": "Thermocapillary force on the surface", "statement": "Summed over a row of liquid surface cells the shear is Dgamma/DT times the temperature difference of its ends; solid cells feel none; with falling surface tension the shear points from hot to cold and never exceeds |Dgamma/DT| times the gradient.", "quantifier": "for all temperature fields and windows", "why_tests_cant": "A sum over all rows for all fields.", "anchors": ["jax_am/cfd/cfd_am.py:AM_3d.get_vel_bc_fn", "jax_am/cfd/cfd_am.py:AM_3d.fluid_frac"]}
{"id": "C204", "title": "A uniform temperature gradient pulls evenly at the surface", "statement": "If the temperature of the liquid surface rises linearly, every surface cell feels the same shear Dgamma/DT times the slope. (False: the cells at the rim of the window feel half of it, because the padding repeats the end values. True inside.)", "quantifier": "for all linear temperature fields", "why_tests_cant": "The rim of the window is rarely liquid in the shipped example.", "anchors": ["jax_am/cfd/cfd_am.py:AM_3d.get_vel_bc_fn"]}
{"id": "C205", "title": "Beam design: more material stores more energy, within a factor of 1000", "statement": "The stress of the beam design is plane-stress Hooke's law with modulus 70 + 69930*theta^3 and Poisson ratio 0.3. Its work on its own strain is nonnegative, grows with theta and varies by at most 1000 over [0,1]. For beams with prescribed displacements and no loads, a design that is nowhere thinner has an equilibrium that stores at least as much energy, and the energies of any two designs differ by a factor of at most 1000.", "quantifier": "for all meshes with nonnegative integration weights, all Dirichlet conditions, all designs in [0,1] and all their discrete solutions", "why_tests_cant": "A test compares a few designs on one mesh; the claim is an ordering over all pairs of designs.", "anchors": ["applications/fem/design/curve.py:Elasticity.get_tensor_map", "applications/fem/design/curve.py:Elasticity.set_params", "applications/fem/design/curve.py:simulation"]}
{"id": "C206", "title": "Beam design: the displacement does not depend on a common factor of the moduli", "statement": "If two designs have proportional moduli in all cells, they have the same discrete solutions. In particular every uniform design, whatever its density, has the same solutions, so the shape objective cannot tell uniform designs apart.", "quantifier": "for all meshes, Dirichlet conditions and uniform or proportional designs", "why_tests_cant": "It is an invariance over a continuum of designs and over all meshes.", "anchors": ["applications/fem/design/curve.py:Elasticity.get_tensor_map", "applications/fem/design/curve.py:Elasticity.set_params", "applications/fem/design/curve.py:simulation"]}
{"id": "C207", "title": "Beam design: parameters reach their cells, the volume constraint is never violated, the objective vanishes exactly on target", "statement": "set_params writes each parameter to its cell and leaves 1 elsewhere. With vf = 1 the volume constraint is at most 0 for every design in [0,1], and 0 only for full material. The objective is nonnegative and 0 exactly when every node of the line has the target displacement 0.15*sin(2*pi*x/Lx).", "quantifier": "for all index lists without repetition, all designs, all solutions and all lines", "why_tests_cant": "The claims are equivalences over all real inputs.", "anchors": ["applications/fem/design/curve.py:Elasticity.set_params", "applications/fem/design/curve.py:simulation"]}
{"id": "C208", "title": "Style loss: the Gram matrix is symmetric, positive semidefinite and blind to mirroring", "statement": "gram_matrix accepts exactly arrays with one image. Its quadratic form in v is the mean over pixels of the squared combination of channels, divided by the number of channels, so it is symmetric and never negative. Turning the features upside down or from right to left does not change it.", "quantifier": "for all arrays and all vectors v", "why_tests_cant": "Tests evaluate single arrays; the claims quantify over all shapes and values.", "anchors": ["applications/fem/aesthetic/modules.py:gram_matrix"]}
{"id": "C209", "title": "Style loss: loss layers are transparent and compare the same features", "statement": "The network built by augmented_vgg19 consists of the normalisation and of the convolutions, activations and poolings of the file in order, cut after the last loss layer. It contains exactly one loss layer for each chosen convolution and kind, in order. Loss layers do not change what passes through. The recorded style loss is the weight times the mean squared difference of the Gram matrices of the features of the tracked image and of the style image after the same convolution, and the content loss is the same with the features themselves.", "quantifier": "for all weight files, layer choices, images and convolution functions", "why_tests_cant": "The network has 16 convolutions and needs a file of weights that is not in the repository.", "anchors": ["applications/fem/aesthetic/models.py:augmented_vgg19", "applications/fem/aesthetic/modules.py:StyleLoss", "applications/fem/aesthetic/modules.py:ContentLoss", "applications/fem/aesthetic/modules.py:Normalization"]}
{"id": "C210", "title": "Style loss: never negative, zero at the target image", "statement": "With nonnegative weights the loss is never negative. Style and content are read from the same file, and when the design equals that image the loss is exactly 0, whatever input is passed.", "quantifier": "for all networks, weights and images", "why_tests_cant": "It is a statement about all networks; a test would need the trained weights.", "anchors": ["applications/fem/aesthetic/style_loss.py:style_transfer", "applications/fem/aesthetic/models.py:augmented_vgg19", "applications/fem/aesthetic/tree_utils.py:weighted_loss", "applications/fem/aesthetic/tree_utils.py:reduce_loss_tree"]}
{"id": "C211", "title": "Style loss: the report works whenever the loss does", "statement": "Whenever the loss can be computed, calculate_losses reports content and style parts that add up to it. (False: the report raises TypeError if one of the two kinds has no layer. If both kinds are present the parts add up.) Loaded images contain only 0 and 1, with the threshold in the middle, and reverse exchanges the two.", "quantifier": "for all collections of losses and all pixels", "why_tests_cant": "The default arguments choose layers of both kinds, so a run never meets the empty case.", "anchors": ["applications/fem/aesthetic/tree_utils.py:calculate_losses", "applications/fem/aesthetic/tree_utils.py:reduce_loss_tree", "applications/fem/aesthetic/image_utils.py:load_image"]}
