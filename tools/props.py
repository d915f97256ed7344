# Writes /verif/properties.jsonl from the table below (one JSON object per line).
import json, os
P = []
def p(title, statement, quantifier, why, anchors):
    P.append(dict(id="C%02d" % (len(P)+1), title=title, statement=statement,
                  quantifier=quantifier, why_tests_cant=why, anchors=anchors))
MM = "moving_mesh_transport/"
SC = MM + "solver_classes/"
SF = MM + "solver_functions/"
LS = MM + "loading_and_saving/"

# ---------------------------------------------------------------- mesh
p("A static mesh never changes",
  "When a mesh is built with moving=False, every later call of move(t), in any number, order and for any times, leaves all edge positions and velocities exactly as construction left them, and all reported velocities are zero.",
  "every configuration for which construction succeeds, every finite sequence of times",
  "tests sample a few times; the claim is about every call sequence an adaptive integrator may issue",
  [SC+"mesh.py: mesh_class.__init__, initialize_mesh (863-873), move (156-262)"])
p("A static mesh sits where the moving mesh ends",
  "Building with moving=False puts the edges exactly where a mesh built from the same settings with moving=True arrives after move(tfinal), for every source kind whose initialiser does not look at the moving flag; for the boundary-source initialiser with a non-zero shock speed it does not.",
  "every cell count, source half-width, final time, edge speed, node set",
  "an identity between two different code paths for all real parameters",
  [SC+"mesh.py: initialize_mesh (796-878), boundary_source_init_func (760-773)"])
p("Slab square-source mesh has N+1 edges exactly when 4 divides N",
  "In slab geometry the thin square-initial-condition mesh has N_space+1 edges and velocities after every sequence of calls when N_space is a positive multiple of 4; for every other N_space construction or the first move raises an error (N_space=2: assertion). The square source in an infinite domain gives no error for N_space=6: it silently keeps 6 edges instead of 7.",
  "every N_space other than 2",
  "needs all residues of N and all sizes",
  [SC+"mesh.py: thin_square_init_func_legendre (579-617), move", SF+"main_functions.py: solve (126-127)"])
p("Square-source mesh cells never tangle",
  "For the slab thin square mesh with strictly increasing Lobatto node sets, positive half-width and non-negative edge speed, the edges are strictly increasing at every time t>=0, so every cell has positive width.",
  "all N divisible by 4, all node sets, all x0>0, v>=0, all t>=0",
  "quantifies over a continuum of times and unbounded N",
  [SC+"mesh.py: thin_square_init_func_legendre, move (179-194)"])
p("Square-source mesh keeps the material interface on an edge",
  "In the same mesh the two edges at -x0 and +x0 stay there for all time and all edges between them are motionless, so the initial discontinuity always lies on a cell boundary.",
  "all N divisible by 4, x0, v, t",
  "continuum of times, unbounded N",
  [SC+"mesh.py: thin_square_init_func_legendre (609-615), move"])
p("Square-source mesh covers the light cone",
  "The outermost edges at time t are at exactly +-(x0 + 0.01 + v t); with edge speed 1 no particle born in [-x0,x0] at time 0 with |speed|<=1 is ever outside the mesh.",
  "all x0, v, t>=0, all admissible N and node sets",
  "continuum of times and positions",
  [SC+"mesh.py: thin_square_init_func_legendre, move"])
p("Reported edge velocity is the derivative of edge position",
  "For the linearly moving meshes (square initial condition without finite domain, plane/dipole sources) the velocity array handed to the flux and the volume terms equals the time derivative of the edge positions at every t.",
  "all such configurations, every edge, every t",
  "a derivative identity over reals",
  [SC+"mesh.py: move (173-194), Dedges", SC+"numerical_flux.py: make_LU (214-215)"])
p("Gaussian and infinite-domain square-source meshes report a velocity but do not move; MMS meshes are a point",
  "With moving=True and a thin Gaussian (initial condition or source) or square source without finite_domain, every sequence of move calls leaves the edges where construction put them although the reported edge velocity is the non-zero initial velocity (+-edge speed at the ends), so reported velocity and actual motion disagree. For sources the initialiser has no branch for (MMS, self-similar plane) every edge is at 0 forever, with zero velocity, whether moving or not.",
  "every such configuration and every t",
  "negative claim over all times",
  [SC+"mesh.py: move (168-262), simple_moving_init_func (495-504)"])
p("Plane-source slab mesh has collapsed cells at time zero",
  "A moving slab mesh for a plane (or dipole) source has, after move(t), edges equal to t times the initial velocities: the initial positions are lost, at t=0 all edges coincide at 0 and every cell has zero width.",
  "every N, x0, edge speed; t=0 and all t",
  "statement about an invariant of state across calls",
  [SC+"mesh.py: simple_moving_init_func (496-497: edges0 not set in slab), move (173-175)"])
p("Spherical shell mesh is well formed and never tangles",
  "In spherical geometry the shell/square mesh has exactly N+1 edges, starts at 0, is strictly increasing for all t>=0, keeps the edges up to the shell radius fixed, and its last edge moves at exactly the edge speed when N>=3; with N=2 no edge moves at all.",
  "all N>=1, x0>0, v>=0, t>=0",
  "unbounded N, continuum of times",
  [SC+"mesh.py: shell_source (506-519), move (179-194)"])
p("Boundary-source mesh follows the shock and keeps its ends",
  "For the boundary-source mesh with even N the end edges stay at +-x0, the middle edge is at -v0*t at every t, at tfinal the two halves are uniform, and cells keep positive width for all t in [0,tfinal] whenever |v0|*tfinal < x0; for odd N>=3 construction fails with a shape error.",
  "all N, x0, tfinal>0, v0, t",
  "continuum of times, all N",
  [SC+"mesh.py: boundary_source_init_func (760-773), move (260-262)"])
p("Accelerating mesh reaches its prescribed final positions",
  "In the finite-domain square-source mesh with linear mover, once t0 is passed each edge follows a parabola that continues position and velocity of the first phase at t0 and is at exactly the uniform mesh on [-pad,pad] at tfinal; the reported velocity is the derivative of the position.",
  "all N divisible by 4, x0, pad, t0<tfinal, all edges",
  "identity over reals for all edges",
  [SC+"mesh.py: move (200-236), move_middle_edges (274-300)"])
p("Mesh position is a function of time only for history-free movers",
  "For square initial condition without finite domain, plane and boundary sources, after any sequence of move calls the mesh at time t depends only on t; for the finite-domain movers it depends on the history: a call past t0 followed by a call before t0 (as adaptive integrators do on rejected steps) gives edges different from a mesh that went straight there.",
  "every finite sequence of times",
  "quantifies over all integrator schedules",
  [SC+"mesh.py: move (188-190, 202-236)"])
p("Finite-domain square mesh freezes at a schedule-dependent place and jumps at the end",
  "With finite_domain the square initial condition mesh stops at the first visited time where the right edge is within 0.01 of the domain edge and then stays frozen (velocity zero) under every later call except at tfinal, where it is replaced by a uniform mesh while the velocity reported is left unchanged.",
  "every schedule of times",
  "quantifies over schedules",
  [SC+"mesh.py: move (179-194)"])
p("Square-root-of-time mesh velocity is the derivative of position",
  "The sqrt(t) mover reports the derivative of its edge position for t>1e-10, is constant below 1e-10 while still reporting the non-zero velocity, and preserves edge order for non-negative move factor.",
  "all t, all configurations",
  "derivative identity, continuum",
  [SC+"mesh.py: square_source_static_func_sqrt_t (464-475)"])
# ---------------------------------------------------------------- flux / matrices
p("Numerical flux is upwind",
  "The surface term of a cell uses, at each face, the trace from the cell the particles come from relative to the moving face: data of the downwind neighbour never influences it.",
  "every mesh, state, direction, cell, order M",
  "non-interference claim over all states",
  [SC+"numerical_flux.py: make_sol, make_LU"])
p("Numerical flux is single valued, so faces exchange exactly what they lose",
  "At every interior face the flux leaving the left cell equals the flux entering the right cell, hence the sum over cells of the zeroth surface moment (times the cell scale) telescopes to right-boundary minus left-boundary flux, in slab and in spherical geometry (there weighted with r^2).",
  "every number of cells, mesh, velocities, direction, order",
  "telescoping over unbounded numbers of cells",
  [SC+"numerical_flux.py: B_LR_func, make_h, make_sol, make_LU"])
p("Basis edge values used by the flux are the basis functions at the cell ends",
  "The left/right edge factors equal the orthonormal basis (Legendre in slab, Chebyshev in sphere) evaluated at the cell's end points, for every order supported and every cell.",
  "all orders (slab: all n; sphere n<=12), all a<b",
  "all orders and all intervals",
  [SC+"numerical_flux.py: B_LR_func (98-121)", SC+"functions.py: normPn, normTn"])
p("Slab stiffness matrix is the exact weak derivative",
  "Entry (i,j) of the slab advection matrix equals the integral over the cell of B_i'(x) B_j(x) for all i,j and all cells.",
  "all i,j, all xL<xR",
  "all orders; test only checks a few",
  [SC+"matrices.py: L_const, make_L_slab"])
p("Slab mesh-motion matrix is the exact time derivative coupling",
  "Entry (i,j) of the slab mesh-motion matrix equals the integral over the cell of (d/dt B_i) B_j when the cell's ends move with the given velocities, for all i,j.",
  "all i,j, all cells and velocities",
  "all orders",
  [SC+"matrices.py: make_G_slab (124-137)"])
p("Spherical mesh-motion table is exact",
  "For 0<=i,j<=10 the hard-coded spherical mesh-motion entry equals pi times the integral over the cell of r^2 (d/dt B_i) B_j for every cell [a,b], a<b, and velocities; outside 0..10 nothing is returned.",
  "121 entries, all real a<b, a', b'",
  "polynomial identities in four real variables",
  [SC+"GMAT_sphere.py: GMatrix (8-512)", SC+"matrices.py: make_G_sphere"])
p("Spherical mass-rate table is exact",
  "For 0<=i,j<=10 the hard-coded mass-rate entry equals the time derivative of pi times the spherical mass matrix entry (integral over the moving cell of r^2 B_i B_j).",
  "121 entries, all real a<b, a', b'",
  "polynomial identities in four real variables",
  [SC+"GMAT_sphere.py: MPRIME (515-1009)", SC+"matrices.py: make_MPRIME"])
p("Uniform slab radiation field is preserved by mesh motion",
  "For a spatially constant angular flux the assembled slab volume and surface terms give exactly the coefficient change caused by re-expanding the same constant on the moving cell: moving the mesh creates or destroys nothing (geometric conservation law), for every order and every interior cell.",
  "all M, meshes, velocities, directions, cells with neighbours",
  "identity for all orders and velocities",
  [SC+"matrices.py: make_L_slab, make_G_slab", SC+"numerical_flux.py: make_LU", SC+"rhs_class.py: call (244)"])
p("Slab particle balance",
  "With the documented slab update, the rate of change of the particle content of each moving cell equals inflow minus outflow through its faces minus absorption plus scattering and source, exactly, in every direction; summed over cells only boundary terms remain.",
  "all M, meshes, velocities, states, numbers of cells",
  "conservation law over all states",
  [SC+"rhs_class.py: call (228-287)", SC+"matrices.py", SC+"numerical_flux.py"])
p("Spherical particle balance",
  "For the spherical update with a correct mass matrix, the rate of change of the r^2-weighted content of each moving cell equals face flux difference minus angular redistribution plus source plus scattering minus absorption, exactly; the mesh-motion and mass-rate terms cancel.",
  "all M<=10, meshes, velocities, states",
  "conservation law over all states",
  [SC+"rhs_class_1.py: call (303-364)", SC+"matrices.py: make_all_matrices", SC+"GMAT_sphere.py"])
p("The active right-hand side does nothing in slab geometry",
  "In slab geometry the right-hand side used by the solver returns its input vector: the time derivative handed to the integrator is the state itself, whatever the mesh, sources, cross sections and times, so the computed slab solution is exp(t) times the initial condition.",
  "every state, time, slab configuration without error",
  "statement about all states; a test would have to know the intended value",
  [SC+"rhs_class_1.py: call (175-366)", SF+"main_functions.py: solve (169-170)"])
p("Spherical absorption ignores the total cross section",
  "In the spherical right-hand side the loss term is exactly minus the state: two configurations differing only in sigma_t (same sigma_s) produce identical derivatives.",
  "every state and configuration",
  "non-interference over all states",
  [SC+"rhs_class_1.py: call (331-338)"])
p("Angular redistribution conserves particles for midpoint weights only",
  "Summed over directions with the widths of the midpoint angular cells, the angular derivative term vanishes identically for every state and every increasing direction set; with the quadrature weights actually used for the scalar flux it does not vanish in general.",
  "all numbers of directions >=2, all direction sets and states",
  "telescoping over unbounded numbers of directions",
  [SC+"functions.py: finite_diff_uneven (575-603)", SC+"rhs_class_1.py: call (271-275)"])
p("Angular derivative of an isotropic field",
  "For a direction-independent flux the angular derivative term at an interior direction equals -2 mu exactly when that direction is the midpoint of its neighbours' midpoints (equally spaced directions) and differs otherwise, so free streaming is not preserved exactly on Gauss directions.",
  "all direction sets",
  "iff over reals",
  [SC+"functions.py: finite_diff_uneven"])
p("Three-point uneven finite difference is second order",
  "The interior formula of finite_diff_uneven_2 differentiates every quadratic exactly on every strictly increasing grid, the end formulas every linear function; the older angular_deriv formula is not exact even for linear data.",
  "all grids, all quadratics",
  "universally quantified real identities",
  [SC+"functions.py: finite_diff_uneven_2 (549-572), angular_deriv (524-545)"])
# ---------------------------------------------------------------- functions / quadrature
p("Chebyshev table is the Chebyshev polynomials",
  "The evaluated basis polynomial of order n<=12 at cos(theta) is cos(n theta), and orders above 12 are rejected.",
  "n in 0..12, all theta; all n>12",
  "identity over reals",
  [SC+"functions.py: eval_Tn (467-496)"])
p("Legendre derivative table",
  "For n<=11 the derivative table equals the derivative of the Legendre polynomial in the reference variable; it omits the factor 2/(b-a) of the physical derivative and silently returns 0 for n>11.",
  "n<=11, all reals",
  "identity over reals",
  [SC+"functions.py: dx_normPn (79-110)"])
p("Chebyshev quadrature is exact on the basis",
  "With n nodes the rule integrates products T_i T_j exactly for i+j<2n: discrete orthogonality holds, weights are positive and sum to pi, nodes lie strictly inside (-1,1), are distinct and symmetric.",
  "all n>=1, all i+j<2n",
  "unbounded n",
  [SC+"functions.py: quadrature (619-625)"])
p("Spherical projection is a left inverse of evaluation",
  "Projecting, with the solver's quadrature, a function that already is a polynomial of degree <= M on a cell returns exactly its coefficients, so a representable initial condition is reproduced without error.",
  "all M<=12, all cells, all coefficient vectors",
  "all coefficient vectors and intervals",
  [SC+"build_problem.py: integrate_quad_sphere (159-162)", SC+"functions.py: normTn, quadrature"])
p("Slab projection is a left inverse of evaluation",
  "With a quadrature exact to degree 2M (Gauss-Legendre with 2M+1 points), projecting a polynomial of degree <= M on a cell returns exactly its coefficients.",
  "all M, all cells, all coefficient vectors",
  "all orders",
  [SC+"build_problem.py: integrate_quad (154-157)", SC+"functions.py: normPn"])
p("Evaluation nodes lie inside their cells in order",
  "The default evaluation points number max(M,1) per cell, all lie strictly inside the mesh, the k-th block lies in the k-th cell, and the whole list is increasing.",
  "all meshes with increasing edges, all M, both geometries",
  "unbounded meshes",
  [SC+"functions.py: find_nodes (183-206)"])
p("Convergence order is recovered",
  "If err = C*N^(-p) at two different cell counts, the printed order is exactly p; it is symmetric under swapping the two runs.",
  "all C>0, p, N1<>N2",
  "all reals",
  [SC+"functions.py: convergence (208-209)"])
p("Bisection brackets a sign change",
  "When bisection returns, the returned point is within the tolerance of a sign change of f inside the original bracket; equal signs at the ends are rejected; an initial bracket not wider than the tolerance makes it fail with an unbound variable.",
  "all functions f, all brackets, all tolerances>0",
  "all functions and loop lengths",
  [SC+"functions.py: bisection (662-672)"])
# ---------------------------------------------------------------- uncollided / sources / IC
p("S2 square-source uncollided flux is the exact integral while the source is on",
  "The closed form equals the integral over emission times of the attenuated contributions of the two beams whenever t<=t0, or |x| >= x0-(t-t0)/sqrt3, or t <= sqrt3(|x|+x0); in the remaining region it exceeds the integral by (exp(-sqrt3(|x|+x0))-exp(-t))/2.",
  "all x, t>=0, x0>0, t0>0",
  "equality of functions over a continuum, case analysis",
  [SC+"functions.py: uncollided_su_olson_s2 (254-316), su_olson_s2_integrand (318-319)"])
p("Square-source uncollided flux is the exact integral",
  "For any exponential-integral function with derivative e^x/x on negative reals, the closed form equals the integral over emission times of e^-(t-tau)/(2(t-tau)) times the visible source length, at every x and t.",
  "all x, t, x0>0, t0>0",
  "equality of functions over a continuum",
  [SC+"functions.py: uncollided_square_s2 (223-245), f1, f2, f3"])
p("Uncollided solutions are even, non-negative and causal",
  "Plane-pulse, square-pulse and S2 square-source uncollided fluxes are even in x, non-negative and vanish outside the light cone, at all x and t>=0.",
  "all x, t, parameters",
  "continuum",
  [SC+"uncollided_solutions.py: square_IC_uncollided_solution, plane_IC_uncollided_solution; functions.py"])
p("Uncollided square pulse starts from the initial condition and decays by absorption",
  "At t=0 the uncollided square-pulse flux equals the source strength inside [-x0,x0] and 0 outside; at all times it lies between 0 and strength*exp(-t).",
  "all x, t>=0, x0>0",
  "continuum",
  [SC+"uncollided_solutions.py: square_IC_uncollided_solution (211-225)"])
p("Source strength is not linear for uncollided pulses",
  "The dispatched uncollided flux of the square and Gaussian pulses is proportional to source_strength squared, the scattering source built from it to its cube, whereas plane pulse and S2 sources are linear (source: squared); doubling the strength therefore does not double the result.",
  "all strengths",
  "scaling law",
  [SC+"uncollided_solutions.py: uncollided_solution (302-336)", SC+"sources.py: make_source (118-149)"])
p("Volume sources switch off and stay in their support",
  "The square source is the indicator of |x|<=x0 for t<t0 and zero afterwards; the Gaussian source is positive for t<=t0 and zero afterwards, even in x.",
  "all x,t",
  "continuum",
  [SC+"sources.py: square_source (102-107), gaussian_source (109-115)"])
p("Initial condition is zero whenever the uncollided solution is used",
  "With the uncollided treatment on, the initial expansion coefficients are all zero for every source kind, mesh and direction, in both geometries, when the build succeeds.",
  "all configurations",
  "all configurations",
  [SC+"mutables.py: IC_func.function (47-81)", SC+"build_problem.py: make_IC"])
p("Initial angular flux is isotropic and normalised",
  "The square and plane initial conditions do not depend on direction; the scalar flux formed with weights summing to 2 is strength inside the source for the square and integrates to strength over the pulse for the plane.",
  "all directions, positions, weight sets summing to 2",
  "continuum",
  [SC+"mutables.py: plane_and_square_IC (89-92), function"])
# ---------------------------------------------------------------- opacity / scattering
p("Non-constant opacity accumulates between evaluations",
  "With non-constant opacity the absorption vector is added to instead of recomputed, so evaluating the same state twice gives different results: the n-th evaluation returns the sum of all n contributions; with constant opacity it is sigma_t times the state every time.",
  "every number of previous evaluations",
  "history of arbitrary length",
  [SC+"opacity.py: make_vectors (162-174)"])
p("Opacity moments are refreshed only when edges change",
  "After a call at edges e the stored moments are those computed at the time of the last change of edges: on a static mesh a time-dependent opacity keeps its first value for ever.",
  "every sequence of calls",
  "history of arbitrary length",
  [SC+"opacity.py: sigma_moments (106-111)"])
p("Scattering preserves particle number for normalised weights",
  "With constant opacity the scattering term is the weighted mean of the angular coefficients: with weights summing to one it reproduces an isotropic state exactly, is linear, and its weighted sum over directions equals the weighted sum of the state.",
  "all numbers of directions, states, weights summing to 1",
  "unbounded numbers of directions",
  [SC+"phi_class.py: make_P (70-86)", SC+"build_problem.py: ws normalisation (103)"])
p("Su-Olson temperature closure inverts the energy",
  "With the Su-Olson closure the emission a T^4 computed from energy density e is exactly e for every e>=0, and the sign of e is preserved for negative values.",
  "all real e",
  "all reals",
  [SC+"radiative_transfer.py: T_func (87-104), su_olson_source (109-123)"])
# ---------------------------------------------------------------- output
p("Output is zero outside the mesh and the cell polynomial inside",
  "The reported angular flux at x is 0 for x outside [first edge, last edge] and otherwise the expansion of the unique cell whose half-open interval contains x; an interior edge belongs to the cell on its left.",
  "all increasing meshes, all x",
  "unbounded meshes, all reals",
  [SC+"make_phi.py: make_phi (53-72)"])
p("Scalar flux output is linear in the solution",
  "The reported collided scalar flux is a linear function of the coefficient array and is the weighted sum of the reported angular fluxes; adding the uncollided flux happens exactly when the flag is set.",
  "all coefficient arrays, scalars",
  "all arrays",
  [SC+"make_phi.py: make_phi (53-72)"])
p("Project then evaluate is the identity",
  "Building the initial coefficients of a function that is a polynomial of degree <=M in each cell and reporting the output at any point of the mesh returns the function's value.",
  "all meshes, all M<=12 (sphere) or all M (slab), all x in the mesh",
  "end-to-end identity over all points",
  [SC+"build_problem.py: make_IC", SC+"make_phi.py: make_phi"])
p("Exit distribution adds the uncollided flux of the wrong points",
  "The exit distribution is the angular flux at the two outermost edges. With the uncollided flux on, its scalar part is added not at those edges but at the output points: with shape checking the call fails unless there are one or two output points, and without shape checking the first two output points are used; the result is the right one exactly when the uncollided flux agrees there.",
  "all output point counts and points",
  "depends on the output points for which no test compares the exit value",
  [SC+"make_phi.py: get_exit_dist (91-112)"])
p("Material energy is never reported",
  "The energy density returned by a solve is identically zero for every run, with or without thermal coupling.",
  "all runs",
  "all states",
  [SF+"main_functions.py: solve (247-250, 269-272)"])
# ---------------------------------------------------------------- storage
p("Save then load returns what was saved",
  "After a save, a load with the parameters of the saved run and a folder name that maps to the same folder returns the directions, weights, edges, angular flux and coefficients as handed over, the points and scalar flux rounded to single precision, and the energy density rounded likewise, or zeros for problem 'transport'; the round trip of the points and flux is exact exactly when every value is a single-precision number. The loader's name for the constant heat capacity problems differs from the saver's.",
  "every prior file content, every solution",
  "every store history",
  [LS+"save_output.py: save_solution (156-240)", LS+"load_solution.py: call_sol (37-79)"])
p("Saving overwrites the run with the same key and nothing else in the folder",
  "Whatever the outcome of a save, it leaves every dataset of every other key of every folder unchanged; after any sequence of saves, a load returns the last save with that folder and key; and on a file made by saves every further save of well-shaped results ends normally.",
  "every sequence of saves",
  "every store history",
  [LS+"save_output.py: save_solution"])
p("Angular flux of different problems overwrite each other",
  "Angular fluxes and directions are stored outside the problem folder: after a save of a second problem kind with the same key, a load of the first returns its own points, flux, edges, weights and coefficients together with the second's angular flux and directions.",
  "all pairs of problem kinds",
  "store histories",
  [LS+"save_output.py: save_solution (199-215)", LS+"load_solution.py: call_sol (53-56)"])
p("The storage key forgets polynomial order, directions, cross section and strength",
  "Two configurations that agree in problem, source vector, ratio, heat capacity, epsilon and width get the same folder and key at equal cell count, whatever their orders, numbers of directions, cross sections and strengths; the loader's result does not depend on its order argument; witness: two different configurations of the shipped file, the first's parameters load the second's results.",
  "all runs",
  "store histories",
  [LS+"save_output.py: save_solution (186-190)", LS+"load_solution.py: call_sol (37-47)"])
p("Distinct listed parameters give distinct storage keys",
  "For decimal-printable parameters, the key string is an injective function of (source name, uncollided, moving, N_space, t, c, width, epsilon) as printed, for the source names the code uses; and two problems of the nine named kinds share a folder only if they are the same problem with the same printed heat capacity.",
  "all parameter tuples",
  "injectivity over unbounded strings",
  [LS+"save_output.py: save_solution (186-190)"])
p("Saved source name is wrong for boundary, dipole and self-similar sources",
  "Results of a boundary source or dipole run are filed under plane_IC and those of the self-similar plane source under square_IC; one-hot source vectors of positions 0..5 map to the right name and position >=6 raises an index error.",
  "all source vectors",
  "all vectors of any length",
  [LS+"save_output.py: __init__ (41-44)"])
# ---------------------------------------------------------------- configuration / driver
p("At most one option of an exclusive group can be selected",
  "Loading an option dictionary succeeds iff at most one value is true and then copies it entry by entry.",
  "all dictionaries",
  "unbounded dictionaries",
  [LS+"load_parameters.py: dictionary_loader (160-169)"])
p("Mismatched refinement lists are rejected",
  "Loading a configuration succeeds only if N_spaces, N_angles and Ms have equal length, so that every run index of the driver is within every list for the 'cells' study; for the 'Ms' study the driver indexes N_spaces[1] and needs length >= 2.",
  "all lists",
  "all lengths",
  [LS+"load_parameters.py (140-142)", SF+"main_functions.py: parameter_function (46-53)", MM+"solver.py: main (104-108)"])
p("The shipped transport configuration loads only the square initial condition",
  "Of all pairs of a shipped problem file and one of the nine problems, with the shipped mesh file, exactly one loads: the square initial condition of transport.yaml. The other problems of that file fail the length check or miss a key, and every other file gives the material coupling as a number where an option group is needed.",
  "the nine problems",
  "finite, decided by evaluation of the whole loader",
  [MM+"input_scripts/transport.yaml", LS+"load_parameters.py"])
p("The driver reports the finest run and the average time",
  "After main with any number of repetitions, the exposed results are those of the last refinement level of the last repetition, and each recorded time is the mean over repetitions of that level's computing times; a run whose levels find their parameters and whose solver calls all return ends normally.",
  "all N_runs>=1, all refinement lists, all solver results",
  "unbounded loops",
  [MM+"solver.py: main (104-226)"])
p("Running all variants leaves no results on the run object",
  "With All=True the four variants are solved in a fixed order, the recorded time of a level is the sum of the four variants' mean times, and the run object's result fields are not updated; with All=False and a normal end they are exactly the solver's.",
  "all problems and flags",
  "all states",
  [SF+"run_functions.py: plane_IC.. (57-284), get_results (290-303)"])
p("Reflecting centre pairs directions",
  "At the innermost spherical cell the inflow of each outgoing direction uses the mirror direction: for every symmetric increasing direction set all checks pass and the partner of direction n is exactly the one with opposite cosine; the pairing is an involution.",
  "all symmetric direction sets of any size",
  "unbounded",
  [SC+"rhs_class_1.py: call (225-233)", SC+"numerical_flux.py: make_sol (188-189)"])
p("Boundary inflow is gated",
  "The boundary inflow contributes exactly when the MMS source is selected, or the boundary source is on, no uncollided treatment, t<=t0 and the matching side is enabled; otherwise slab boundaries are vacuum.",
  "all settings, times, cells",
  "all combinations",
  [SC+"numerical_flux.py: is_boundary_source_on (162-177), make_sol"])
p("The reported average time step",
  "The step counter cycles through 0..1000 and the average step reported is the sum of the last 1001 absolute time increments divided by 1000.",
  "every sequence of calls",
  "history of arbitrary length",
  [SC+"rhs_class_1.py: time_step_counter (139-154)"])
p("The slab update is exactly the weak form",
  "For every cell, direction and test function, the assembled slab update equals the integral over the moving cell of the field times (time derivative plus mu times space derivative of the test function), plus scattering, removal and source tested against it, minus the upwind face terms with speeds relative to the faces.",
  "all orders, cells, directions, meshes with positive widths, edge motions and coefficients",
  "identity between sums and integrals for all orders",
  [SC+"rhs_class_1.py: call (175-259)", SC+"matrices.py: G_L (109-140)", SC+"numerical_flux.py: make_LU (205-259)"])
p("Thermal coupling conserves total energy",
  "With thermal coupling, normalised weights and c + c_a = 1, the rate of change of material energy plus twice the angle-averaged radiation content of a slab cell is only face transport plus source: the absorption-emission exchange cancels exactly.",
  "all emission models, states, orders, cells and edge motions",
  "exact cancellation for arbitrary emission function",
  [SC+"rhs_class_1.py: call (175-259)"])
p("The numerical flux has no memory",
  "The result of the surface-term routine for a cell does not depend on what earlier calls left in the object (widths and coefficients), although one width is left stale at the last cell; and the mirrored direction's data are used only at the left face of the innermost spherical cell for inflow.",
  "all prior object states",
  "all histories of a mutable object",
  [SC+"numerical_flux.py: make_h (103-122), make_sol (179-203), make_LU (205-259)"])
p("The spherical update is exactly the weak form",
  "For every cell, direction and test function of the moving spherical mesh, if the coefficients move as the right-hand side says (exact coefficient tables, exact inverse), the rate of change of the r^2-weighted moment is the integral of the field times (time derivative plus mu times radial derivative of the test function), minus the angular term weighted by r, plus scattering, minus the state, plus half sigma_s times the source, minus the face terms at speeds relative to the faces.",
  "all orders up to 10, cells, directions, meshes with positive widths, edge motions and coefficients",
  "identity between matrix formulas and integrals over moving cells for arbitrary data",
  [SC+"rhs_class_1.py: call (303-338)", SC+"matrices.py: make_all_matrices", SC+"GMAT_sphere.py"])
p("The spherical coefficient-table format can represent the exact matrices",
  "There are coefficient tables for which the formulas of the matrix code (polynomials in the two edges with one rational coefficient per entry and the square-root-of-two corrections) give, for every order and every cell, exactly the mass, angular and stiffness integrals of the basis; the first row of the stiffness matrix vanishes whatever the table.",
  "all orders and cells of positive width",
  "existence over infinitely many entries and exactness for all real edges",
  [SC+"matrices.py: make_all_matrices", SC+"functions.py: sqrt_two_mass_func (703-719), rttwo_mistake_undoer (721-736)"])
p("Legendre derivative helpers",
  "For every order >= 1 and x^2 <> 1 the first-derivative helper returns the derivative of the Legendre polynomial, and for every order >= 2 the second-derivative helper returns its second derivative.",
  "all orders, all reals with x^2 <> 1",
  "all orders and reals; tests sample a few",
  [SC+"functions.py: eval_legendre_deriv, eval_second_legendre_deriv (674-681)"])
p("Newton iteration stops only near a zero of the step",
  "A point returned by newtons is one Newton step away from a point whose step is at most the tolerance, and a root given as start is returned unchanged; newtons2 overwrites the old iterate before comparing and so always performs exactly one step, converged or not.",
  "all functions, derivatives, starts, tolerances",
  "arbitrary functions and number of iterations",
  [SC+"functions.py: newtons2, newtons (683-701)"])
p("Gauss-Lobatto rule",
  "For n >= 3, when the root finder returns distinct interior zeros of the derivative of P_{n-1}, the rule has n nodes in [-1,1] including both ends, positive weights summing to 2, and is exact up to degree 2n-3. For n = 2 and n = 1 the weights are left at zero, for n = 0 the construction fails.",
  "all n, all root-finder results satisfying the stated condition",
  "exactness for all polynomial degrees and all n",
  [SC+"functions.py: quadrature (615-660)"])
# ---------------------------------------------------------------- sources, continued
p("The manufactured source is the residual of the manufactured solution",
  "For psi(x,t)=exp(-x^2/2)/(2(1+t)), half the manufactured source equals d psi/dt + mu d psi/dx at every point of |x|<=t+x0, is zero outside, and the manufactured initial condition is psi(x,0).",
  "all x, mu, t>=0, x0",
  "an identity between derivatives at every point of a continuum",
  [SC+"sources.py: MMS_source (94-100)", SC+"mutables.py: MMS_IC (114-117)"])
p("S2 Gaussian-source uncollided flux is the exact integral",
  "For every error function with the right derivative the closed form used for thin Gaussian sources equals the integral over emission times of the two attenuated beams, which is also the integrand of the branch for thick sources.",
  "all x, t, sigma>0, t0",
  "a closed-form integral over a continuum of parameters",
  [SC+"functions.py: uncollided_s2_gaussian (323-328)", SC+"uncollided_solutions.py: gaussian_s2_thick_integrand, gaussian_s2 (272-286)"])
p("Gaussian pulse and Gaussian source: uncollided flux is the average over directions",
  "The Gaussian-pulse uncollided flux equals strength times the direction average of the attenuated pulse up to the factor 4t/(4t+1e-12) for t>0, but at t=0 it is 0 instead of the pulse; the integrand of the Gaussian source is the direction average of the attenuated emission.",
  "all x, t, sigma>0",
  "closed-form integral over all directions; the t=0 defect hides in one point",
  [SC+"uncollided_solutions.py: gaussian_IC_uncollided_solution (242-248), gaussian_source_integrand (103-115)"])
p("Spherical shell uncollided flux is the average over directions",
  "The critical cosine separates exactly the directions in which the back-traced point lies inside the initial sphere, and the flux is the direction average of the attenuated uniform density 3/(4 pi x0^3).",
  "all r>0, t>=0, x0>0",
  "geometry for a continuum of radii and times",
  [SC+"uncollided_solutions.py: shell_IC_uncollided_solution (227-239)"])
p("Spherical initial conditions: shell normalised, point pulse not",
  "The spherical shell initial condition integrates over the volume to the source strength; the point pulse integrates to 8 pi/3 times the strength; every other source kind has no spherical initial condition and fails.",
  "all half-widths, strengths, mesh radii containing the source",
  "an integral identity for all parameters",
  [SC+"mutables.py: shell_IC (94-99), point_pulse (83-85), function (47-81)"])
p("Static plane pulse keeps its strength when there are at least four cells",
  "On a static uniform mesh with an even number of cells the half-width is replaced by two cell widths; with at least four cells the pulse on the mesh integrates to the strength, with two cells to half of it. The dipole integrates to +strength on the right and -strength on the left.",
  "all even cell counts, mesh half-widths, strengths",
  "unbounded cell counts; tests use one",
  [SC+"build_problem.py: make_IC (172-219)", SC+"mutables.py: plane_and_square_IC, dipole"])
p("Moving plane pulse source uses the half-width where the flux uses 1e-12",
  "The zeroth source coefficient of the moving plane pulse times (2t+x0) equals the exact projection of the plane uncollided flux on a cell inside the light cone times (2t+1e-12); it is too small whenever x0 exceeds the guard.",
  "all cells inside the light cone, all t>=0, x0>=0",
  "relation between two formulas on all cells and times",
  [SC+"uncollided_solutions.py: plane_IC_uncollided_solution (250-259), plane_IC_uncollided_solution_integrated (261-264)"])
# ---------------------------------------------------------------- opacity, scattering, emission, continued
p("Triple-product table",
  "Entry (i,j,k) of the table equals the integral of three orthonormal basis functions over a cell times the square root of its width, for every cell, is symmetric in its indices, and is right whenever the opacity order is at most 2M+1; with opacity order 2M+2 an entry is wrong.",
  "all orders, cells, quadrature rules exact to degree 4M+1",
  "all index triples and cells; the zero pattern hides wrong entries",
  [SC+"opacity.py: integrate_quad, both_even_or_odd, create_integral_matrices (73-103)"])
p("Scattering and absorption with variable opacity are Galerkin projections",
  "With non-constant opacity the scattering vector is sigma_s times the projection of (opacity expansion times scalar flux expansion) and the first absorption vector of a fresh object is sigma_t times the projection of (opacity expansion times state); the weighted sum over directions of absorption minus scattering is sigma_t - sigma_s times the projected reaction rate.",
  "all orders, cells, states, numbers of directions, weights summing to 1",
  "integral identities for all states",
  [SC+"phi_class.py: make_P (70-86)", SC+"opacity.py: make_vectors (162-174)"])
p("Unit opacity has unit moments and both absorption formulas agree on it",
  "The moments of the constant opacity are sqrt(dx), 0, 0, ...; with these moments the general absorption formula gives sigma_t times the state, the value of the constant-opacity branch.",
  "all cells, orders, states",
  "agreement of two code paths for all states",
  [SC+"opacity.py: integrate_moments (78-80), make_vectors (162-174)"])
p("Su-Olson emission vector equals the energy vector",
  "With the Su-Olson closure and a rule exact to degree 2M the emission vector H of a cell equals the energy coefficients; without coupling it is zero.",
  "all energy coefficients of either sign, all cells and orders",
  "exactness through a fourth root for all states",
  [SC+"radiative_transfer.py: make_e, integrate_quad, make_H (73-130)"])
p("Opacity profiles are positive and defined exactly for the named options",
  "Each named opacity option gives a positive value everywhere at all times, no option selected fails, and the shock profile is the density behind the front and 0.2 ahead of it.",
  "all positions and times",
  "continuum of positions and times",
  [SC+"opacity.py: sigma_function (113-160)"])
# ---------------------------------------------------------------- reported solution, continued
p("Time-series output",
  "With evaluation times and chosen points, row i of the report is the output of state i on the mesh moved to tfinal and then through the evaluation times up to i; with default points the run always fails after the solution has been computed (a call lacks the geometry), and so does an empty list of times.",
  "all evaluation-time lists, meshes, states",
  "needs all list lengths; the failing branch runs only after an expensive solve",
  ["moving_mesh_transport/solver_functions/main_functions.py: solve (229-275)"])
p("Reported particle number",
  "The integral of the reported collided scalar flux over the mesh is the sum over cells of the square root of the width times the weighted sum over directions of the zeroth coefficients.",
  "all slab meshes, orders, states",
  "an integral identity for all states",
  [SC+"make_phi.py: make_phi (53-72)"])
# ---------------------------------------------------------------- configuration and driver, continued
p("A loaded configuration is consistent",
  "If loading succeeds then sigma_t is not zero, the scattering ratio is sigma_s/sigma_t, each option group (geometry, material coupling, opacity) has at most one selected option, the opacity group has the option 'constant', and outside the two Gaussian problems the stored width is x0; every number, text and array is the converted entry of its own name in its own section, the speeds 'one' and 'sqrt_3' are 1 and the positive root of 1/3, and the width is converted entry by entry exactly for plane pulses.",
  "all configuration files and problem names",
  "unbounded file contents",
  ["moving_mesh_transport/loading_and_saving/load_parameters.py: parameter_load_class"])
p("Two problem methods fail after the expensive solve",
  "A boundary-source run of a single variant always raises after the solve, with the results already stored; a square-source run of all variants on a fresh run object raises after the four solves, and a run of one variant ends normally only if x0 is a single number.",
  "all configurations, solvers, flags",
  "the failing statement runs only after an expensive solve",
  ["moving_mesh_transport/solver_functions/run_functions.py: square_source, boundary_source"])
p("What a driver run leaves on disk",
  "After a run with saving that ends normally, for each refinement level whose cell count no later level repeats, a load with the parameters of that level returns what the last repetition's call of the solver for this level returned; in a study over orders all levels share one key and a load with the parameters of any level returns the last level. The width in the key is sigma for a Gaussian problem with sigma not zero and otherwise the first entry of x0.",
  "all configurations, solvers with well-shaped results, prior file contents, numbers of levels and repetitions",
  "needs every history of saves of a whole study",
  ["moving_mesh_transport/solver.py: main (104-168)", "moving_mesh_transport/loading_and_saving/save_output.py: save_solution", "moving_mesh_transport/loading_and_saving/load_solution.py: call_sol"])
p("Time series on disk",
  "With evaluation times, each time whose printed form no later time repeats can be loaded: points, flux and angular flux are those of that time, while edges, coefficients and weights are those of the end of the run.",
  "all lists of evaluation times, configurations, solvers with well-shaped results",
  "needs every list of times and every history",
  ["moving_mesh_transport/solver.py: main (153-168)"])
p("Recorded wave fronts are written to one file and read from another",
  "Whatever a run does and however it ends, the file wave fronts are read from keeps exactly the datasets it had; on one common file recording and then reading would return the record for the kinds su_olson_thick_s2 and rad_transfer_constant_cv_thick, but the record of rad_transfer_constant_cv_thick_s2 is filed under a name the reader never opens.",
  "all runs, configurations, solvers, disk contents",
  "needs every history of runs",
  ["moving_mesh_transport/loading_and_saving/save_output.py: __init__ (18), save_wave_loc (243-289)", "moving_mesh_transport/loading_and_saving/load_solution.py: __init__ (22), call_wavepoints (83-157)", "moving_mesh_transport/solver.py: main (80-100, 276-278)"])
p("When a run may ask for a recorded wave front",
  "A run whose move type asks for a recorded front ends normally only if it is optically thick, has a square or Gaussian source, is one of three problem kinds and the record file exists; with no record in that file the front handed to the mesh is the single point (tfinal, 0, 0). A run that does not ask gets no front and reads nothing.",
  "all configurations, solvers, disk contents",
  "the failing branches are reached only by configurations nobody ships",
  ["moving_mesh_transport/solver.py: main (80-100, 125-132)", "moving_mesh_transport/loading_and_saving/load_solution.py: call_wavepoints (83-157)"])
p("Widths, time steps and benchmark sources of the driver",
  "The width of a level is its own entry for Gaussian pulses and manufactured solutions and the first entry otherwise; time steps are the successive differences, one fewer than times, positive for increasing times, and add up to the elapsed time, no times being an error; the benchmark selector accepts exactly four (source, width) cases and returns the two adjacent one-hot vectors of length 16.",
  "all lists and vectors",
  "unbounded list lengths and an exact acceptance domain",
  ["moving_mesh_transport/solver_functions/main_functions.py: s2_source_type_selector (56-76), time_step_function (79-84), x0_function (287-292)"])
# ---------------------------------------------------------------- splines and elimination
p("Gaussian elimination returns the solution",
  "Whenever GaussElim returns a vector, that vector satisfies every equation of the system, and it is the only one that does.",
  "all sizes, matrices, right-hand sides",
  "unbounded sizes and all pivoting orders",
  [SC+"cubic_spline.py: swap_rows, BackSub, GaussElim (350-444)"])
p("Gaussian elimination succeeds exactly on nonsingular systems",
  "GaussElim returns a vector exactly when only the zero vector is mapped to zero, although the pivot search scales every candidate by the same number; otherwise, also when the singular system has solutions, it raises ZeroDivisionError.",
  "all sizes, matrices, right-hand sides",
  "completeness of a pivoting rule over all matrices",
  [SC+"cubic_spline.py: GaussElim (389-444)"])
p("The spline system is solvable for increasing knots",
  "For strictly increasing knots and at least two data points the construction of the spline succeeds; with two equal neighbouring knots it raises ZeroDivisionError, even if the data agree.",
  "all numbers of knots, all data",
  "nonsingularity of a family of matrices of unbounded size",
  [SC+"cubic_spline.py: points, first_deriv, second_deriv, solve_spline (38-113)"])
p("Spline evaluation is the natural cubic spline",
  "For strictly increasing knots the evaluated function is, between the first and the last knot, the unique function through the data that is cubic between knots, twice continuously differentiable and without curvature outside; straight lines are reproduced; outside the range the evaluation returns 0.",
  "all numbers of knots, all data, all evaluation points",
  "a characterisation with a uniqueness claim over all functions",
  [SC+"cubic_spline.py: cubic_spline (16-125)"])
# ---------------------------------------------------------------- stability
p("The squared norm of the slab solution decays",
  "Without a source and with nothing entering, on any mesh whose edges move differentiably and stay ordered, the direction-averaged square integral of the solution of the slab equations changes at exactly minus the squared jumps at all faces times the speeds relative to the faces, minus twice itself, plus the scattering gain; so for nonnegative weights of sum one it is bounded by exp(-2(1-c)t) times its initial value and never grows for scattering ratios c up to one.",
  "all meshes and mesh motions, cell counts, orders, direction sets, trajectories",
  "a stability bound over all mesh motions and all times",
  [SC+"rhs_class.py: RHS (244)", SC+"numerical_flux.py: make_LU (203-230)", SC+"matrices.py: make_L_slab, make_G_slab (121-137)"])
p("Slab solutions depend continuously on their initial values",
  "Two trajectories of the slab equations with the same mesh motion, source and boundary data differ, in the direction-averaged square norm, by at most exp(-2(1-c)t) times their initial difference; with positive weights the initial coefficients determine all later ones.",
  "all meshes and mesh motions, sources, boundary data, pairs of trajectories",
  "a relation between two runs, for all data",
  [SC+"rhs_class.py: RHS (244)", SC+"numerical_flux.py: make_sol (180-201), make_LU (203-230)"])
# ---------------------------------------------------------------- front tracking
p("The front-tracking mesh follows the recorded front",
  "For the thin square source on a finite domain with the front-tracking mover, after any history of calls: before the front leaves the source the edges are the initial ones; afterwards the last four edges sit at the front plus leader pad, plus pad, plus nothing and minus pad, but never inside their initial places, the edges from the source boundary to the fourth-last are equally spaced, the source edges rest, the left side mirrors the right, and all edges are strictly increasing; the reported velocities are the forward differences over 1e-7; every history inside the record goes through.",
  "all records, cell counts, node sets, histories of times",
  "histories are unbounded sequences of real times",
  [SC+"mesh.py: thick_wave_loc_and_deriv_finder (304-331), thick_square_moving_func_2 (333-341), move (200-236)"])
p("The front-tracking mesh jumps when the front leaves the source",
  "The outermost edge is at the source half-width plus 1/100 as long as the front is inside the source, and at least at the half-width plus the leader pad as soon as it is not, however close the two times; for a leader pad above 1/100 the edge motion is discontinuous.",
  "all records, configurations, histories, pairs of times",
  "the two times may be arbitrarily close",
  [SC+"mesh.py: thick_wave_loc_and_deriv_finder (312-316)"])
p("The thick front-tracking mesh collapses",
  "The thick initialisation does not store initial edges: the first call at time 0 moves every edge to 0, and after any further calls inside the record the whole source half of the edges is still at 0, so the edges are never increasing again; the initial source edges have half-width 1/2 whatever the source width.",
  "all configurations with at least 16 cells, all histories",
  "all later histories",
  [SC+"mesh.py: thick_square_moving_init_func (638-673), thick_wave_loc_and_deriv_finder (312-313)"])
p("Reading the recorded front",
  "Between the first and the last recorded time the front position is the broken line through the records; at the last recorded time and beyond the search leaves the array, and so does the mesh call.",
  "all increasing records, all query times, all histories",
  "unbounded record lengths",
  [SC+"mesh_functions.py: _interp1d (92-114)", SC+"mesh.py: thick_wave_loc_and_deriv_finder (306)"])
# ---------------------------------------------------------------- benchmarks
p("Which benchmark a run is compared with",
  "The data set is the one stored under the name belonging to the first entry one of the source vector and under the final time, multiplied by the scattering ratio when scaling is asked for, except at 31.6228 where the stored time is used unscaled; a source vector without an entry one loads the plane-source data; positions beyond the sixteen names are an index error.",
  "all source vectors, times, ratios, files",
  "all source vectors and file contents",
  ["moving_mesh_transport/loading_and_saving/load_bench.py: __init__ (20-82)"])
p("Evaluating the benchmark at increasing points",
  "If all points are in the range of the benchmark each gets its interpolated value; if the last one is beyond the range, every point gets its value (zero beyond the range) except the one point nearest to the end of the range, which gets zero also when it is inside.",
  "all point lists, benchmarks, ranges",
  "all point lists of all lengths",
  ["moving_mesh_transport/loading_and_saving/load_bench.py: stich_solution (84-111), __call__ (122-134)"])
p("Evaluating the benchmark at symmetric points",
  "For points symmetric about the origin and reaching beyond the range: with an even number every point gets its value except the nearest pair, which gets zero; with an odd number the evaluation raises ValueError when the nearest point is beyond the range, and otherwise gives the two points of the nearest pair different values.",
  "all symmetric point lists, benchmarks, ranges",
  "all point lists of all lengths",
  ["moving_mesh_transport/loading_and_saving/load_bench.py: stich_solution (84-111), __call__ (122-134)", "moving_mesh_transport/solver.py: solve (236-243)"])
p("The reported errors",
  "The reported error is the root of the mean squared difference, zero exactly when the arrays agree, and cannot be computed for arrays of different lengths. With the integer code 0 for thermal coupling it compares the flux with the benchmark at the absolute positions; with 1 and Legendre directions with the two S2 benchmarks; with 1 and Lobatto directions it compares row by row with a table whatever the positions, and raises without a table. With the dictionary every loaded configuration contains, no error is ever computed and a run with benchmarking raises; so does every benchmark kind but full and S2.",
  "all arrays, configurations, benchmarks",
  "all arrays and all configurations",
  ["moving_mesh_transport/solver.py: main (44-52), solve (236-273)"])
p("Scaling the benchmark to another scattering ratio",
  "If psi solves the transport equations with scattering ratio one then c exp(-(1-c)t) psi(c x, c t) solves them with ratio c; so the scaled comparison compares with the flux of the problem that is solved, whose initial value is c psi(c x, 0).",
  "all direction sets, weights, ratios, solutions, points",
  "an identity for solutions of a differential equation",
  ["moving_mesh_transport/solver.py: solve (240-243)", "moving_mesh_transport/loading_and_saving/load_bench.py: __init__ (29-33)"])
# ---------------------------------------------------------------- recorded fronts
p("The array of recorded fronts is read with the wrong index",
  "The driver packs times, left edges, right edges and temperature fronts as an array of shape (4,1,n); the mesh reads rows (0,0), (0,2) and (0,3). With index checks the last two raise for every array the driver builds; without them, as compiled, the reads hit exactly the times, right edges and fronts. The placeholder of runs without recorded fronts has no such rows.",
  "all record lengths and contents",
  "all record lengths; the addresses are not observable in the result",
  ["moving_mesh_transport/solver.py: main (88, 98, 100)", SC+"mesh.py: thick_wave_loc_and_deriv_finder (306), 425, 444"])
p("Estimating the front never succeeds",
  "With the front estimation switched on every solve raises: the constructor subscripts the scalar opacity, and after that the nodes are asked for with an argument missing; so no run with it ends normally and no front can be recorded. Only with the switch at 0 the solve continues, with three arrays of one zero.",
  "all opacities, sources, times, configurations, solvers",
  "all configurations",
  ["moving_mesh_transport/solver_functions/wave_loc_estimator.py: __init__ (15-31), make_sol (91-116)", "moving_mesh_transport/solver_functions/main_functions.py: solve (204-211)"])
p("What the front estimate would be",
  "The bounds would not depend on the solution: the searches start with their stop flags set, so left and right bounds are the source half-width for square sources and 0 for Gaussian ones, the left one at least a mean free path, constant in time. The temperature front would be the distance from the origin of the first sample where the energy falls most steeply, the first record replaced by the half-width.",
  "all solutions, sources, times",
  "all solutions",
  ["moving_mesh_transport/solver_functions/wave_loc_estimator.py: find_wave (33-88), find_wave_bounds (118-190), find_T_wave (192-200)"])
# ---------------------------------------------------------------- error of the scheme
A = [SC+"rhs_class.py: RHS (244)", SC+"numerical_flux.py: make_LU (203-230)", SC+"matrices.py: make_L_slab, make_G_slab (121-137)"]
p("The projected exact solution almost solves the code's equations",
  "The coefficients of the projection of an exact solution of the transport equation on the moving cells change at the rate the slab update computes from them, plus at each end of the cell the basis value times the relative speed times the defect there: the upwind value the update would take minus the exact value.",
  "all smooth exact solutions, mesh motions, cells, moments, directions, sources",
  "an identity between a differential equation and its discretisation on all moving meshes",
  A)
p("The error of a computed trajectory is bounded by the face defects",
  "For nonnegative weights of sum one and a scattering ratio between 0 and 1, the weighted squared L2 distance between a trajectory of the slab update and the projected exact solution at the end is at most exp(-2(1-c)T) times its initial value plus T times a bound of the sum over directions and faces of weight, relative speed and squared defect.",
  "all exact solutions, trajectories, mesh motions, cell numbers, orders, quadratures",
  "a bound for all trajectories of a differential equation",
  A)
p("Quality of the projection on a cell",
  "The projection on the Legendre basis up to order M reproduces polynomials of degree at most M; for a function with M+1 derivatives it is within a constant times K h^(M+1)/(M+1)! at both ends of a cell of width h, and within (K h^(M+1)/(M+1)!)^2 h in the squared mean.",
  "all orders, cells, functions",
  "all functions and all orders",
  [SC+"functions.py: normPn (42)", SC+"build_problem.py: make_IC (172)"])
p("Order of convergence on moving meshes",
  "With exact inflow and a start from the projection, the squared L2 distance between the computed and the exact solution is at most 2 (K h^(M+1)/(M+1)!)^2 ((N+1) s C^2 T + L) for cells no wider than h, M+1 space derivatives bounded by K, relative speeds bounded by s; for at most w/h faces this is of order h^(2M+1).",
  "all orders, mesh motions, cell numbers, quadratures, exact solutions",
  "an asymptotic statement for all meshes",
  A)
p("Waves whose fronts ride on mesh edges are computed exactly",
  "If the exact solution is in every cell a polynomial of degree at most M, continuous across every edge that does not move with the particles, with exact inflow, then every trajectory of the slab update starting from its projection equals it at all later times, also with jumps at edges moving with the particles.",
  "all piecewise polynomial exact solutions, mesh motions, trajectories",
  "all trajectories of a differential equation",
  A)
# ---------------------------------------------------------------- structure of the slab scheme
A = [SC+"rhs_class.py: RHS (244)", SC+"numerical_flux.py: make_LU (203-230)", SC+"matrices.py: make_L_slab, make_G_slab (121-137)"]
AT = A + [SC+"rhs_class.py: energy (203-215), transport (295-305)"]
p("Constants in the cells preserve order, linear functions do not",
  "With one moment per cell, on every moving mesh, a trajectory that starts below another one with at least its source and inflow stays below it; nothing becomes negative, and without a source and with scattering ratio at most one no value exceeds the largest initial or entering one. With two moments a nonnegative start can give a cell with a negative number of particles.",
  "all mesh motions, cell numbers, quadratures with nonnegative weights, sources, boundary data; a witness for two moments",
  "a statement about all pairs of trajectories",
  A)
p("Mirror symmetry",
  "The mirror image of a trajectory of the slab update at the origin is a trajectory of the mirrored problem, with the same values at mirrored points and directions; if mesh, quadrature, source, boundary data and initial values are symmetric, the solution is symmetric at all times.",
  "all mesh motions, orders, cell numbers, quadratures, sources, boundary data",
  "all trajectories of a differential equation",
  A)
p("Change of units",
  "Measuring lengths and times in units of l turns every trajectory of the coupled radiation and material equations with length parameter l into one with parameter 1, with the same values of both fields at corresponding points and times and correspondingly scaled projections of all data.",
  "all l > 0, mesh motions, orders, quadratures, emission and source courses",
  "all trajectories and a continuous parameter",
  AT)
p("Superposition and proportionality",
  "A linear combination of two trajectories for different sources and boundary strengths on the same moving mesh is a trajectory for the combined source and strength; with no inner source and an empty start the flux is proportional to the strength of the boundary source.",
  "all mesh motions, orders, quadratures, factors, sources",
  "all trajectories of a differential equation",
  A + [SC+"numerical_flux.py: integrate_quad (93-101)"])
p("Dependence on the source",
  "If the sources of two trajectories differ by at most s in the L2 norm at all times, the square root of their weighted squared distance grows by at most s/2 per unit of time, for scattering ratios up to one, on every moving mesh.",
  "all mesh motions, orders, quadratures with nonnegative weights of sum one, pairs of sources",
  "a bound for all trajectories of a differential equation",
  A)
p("Nothing leaks through edges that outrun the particles",
  "If the outer edges move outwards at least as fast as every direction cosine and nothing enters, the number of particles in the mesh changes only by removal, scattering and the source: without a source it is exp(-(1-c)(t-t0)) times the initial number, and constant for pure scattering.",
  "all mesh motions with such outer edges, orders, quadratures with weights of sum one",
  "all trajectories of a differential equation",
  A)
p("The coupled radiation and material energies decay",
  "With the emission equal to the material energy (Su-Olson closure), no source and nothing entering, the weighted squared norm of the radiation plus a quarter of the squared norm of the material energy changes exactly by minus the jumps at the faces, minus the deviation from isotropy, from albedo one and from equilibrium; it never grows for c + c_a at most one, distances of solutions do not grow, and the initial values determine both fields.",
  "all mesh motions, orders, quadratures with nonnegative weights of sum one, scattering and absorption coefficients",
  "an identity and a bound for all trajectories of a differential equation",
  AT + [SC+"radiative_transfer.py: su_olson_source (109-123)"])
RD = [SF+"Chebyshev_matrix_reader.py: file_reader (4-60)", SF+"main_functions.py: solve (132-133, 159)"]
p("Reading the coefficient tables",
  "The reader succeeds exactly when the five files open, hold denominators, and hold every named array it uses in a length that fits; the tables then hold those arrays, the rest is zero, and the coefficients of the G and VV files are never read. The names of the arrays are distinct exactly up to size 10; files from which the exact mass, J and L matrices are read exist exactly up to size 12.",
  "all file contents and sizes",
  "all file contents; clashes of names appear only from size 11 on",
  RD + [SC+"matrices.py: make_mass_sphere, make_J_sphere, make_L_sphere (139-292)"])
p("What the self-test of the matrices shows",
  "Tables holding the exact integrals pass every check in every cell and the whole of matrix_test, whose 80 reference numbers are right to 1e-5; passing at order 3 bounds every entry read from files by 2e-5 in the one cell of the test. It does not show more: a zero mass matrix passes at orders 0 and 1, a table wrong in every other cell passes at every order, entries of G beyond the first four are unchecked outside order 3, and in the slab the test fails at order 3 and tests nothing otherwise.",
  "all tables, orders, cells and edge velocities",
  "this is about what the tests themselves can and cannot find",
  [SC+"matrices.py: matrix_test (307-361), checks (169-176, 203-211, 239-251, 281-292)"])
p("Every initial state has exactly one trajectory",
  "On a mesh with ordered, continuously moving edges and continuous sources the slab equations have a solution over the whole interval from every initial state, and only one, whatever the weights and the scattering; likewise radiation coupled to a material whose emission is its energy. This needs the boundary sources not to be switched inside the interval: across a switch there is no differentiable solution, since the rate of change jumps.",
  "all mesh motions, orders, cell numbers, quadratures, sources, initial states, interval lengths",
  "existence and uniqueness for a differential equation over all time courses",
  AT)
SP = [SC+"rhs_class_1.py: call (303-364)", SC+"matrices.py: make_mass_sphere, make_J_sphere, make_L_sphere (139-292)", SC+"numerical_flux.py: make_LU", SC+"functions.py: finite_diff_uneven (575-603)"]
p("The spherical mass matrix can be inverted",
  "On every cell between two radii the mass matrix with exact tables is symmetric and positive definite: its quadratic form is the r^2-weighted integral of the squared expansion. It therefore has exactly one inverse on coefficient vectors, two-sided, and the update does not depend on which inverse routine supplies it.",
  "all cells, orders, tables holding the exact integrals, inverse routines",
  "invertibility for all orders and cells",
  SP)
p("When a uniform field stays uniform in the sphere",
  "A constant isotropic field in balance with its collisions changes, in every inner cell, at the rate of the expansion of the constant on the moving cell plus a term 2 (mean of the angular cell - direction) / r. So it is preserved exactly by directions in the middles of their angular cells, that is for -1 + (2a+1)/N; the Gauss directions which the code uses do not preserve it.",
  "all mesh motions, orders, direction sets, inner cells",
  "a statement about all direction sets and moving meshes",
  SP)
p("The energy of spherical runs",
  "The r^2-weighted squared norm, summed over directions with the widths of the angular cells, changes exactly by minus the squared jumps at the faces times the speed relative to the face, plus a term with the offset of each direction from the middle of its angular cell, plus collisions and source. For directions in the middles it decays like exp(-2 (1-c) t); for two Gauss directions it can grow with no scattering and no source.",
  "all mesh motions, orders, direction sets, runs",
  "an identity for all trajectories of a differential equation",
  SP)
p("The number of particles in a sphere",
  "The integral of r^2 times the expansions, summed over directions with any weights, changes by what leaves through the outer edge, the collisions and a sum over directions of the jumps the angular differencing makes between neighbours. That sum vanishes for weights equal to the widths of the angular cells, and the number then follows exp(-(1-c) t) while the outer edge outruns every particle. With the Gauss weights, which the code uses for the scalar flux it reports, the number changes in a purely scattering sphere which nothing enters or leaves.",
  "all mesh motions, orders, direction sets, weights, runs",
  "a balance over all trajectories and weights",
  SP)
p("Every start of a sphere has exactly one run",
  "On a mesh with ordered, continuously moving edges, exact tables and continuous sources the spherical equations have a run over the whole interval from every start if and only if the order is at most 10 and the checks of the directions pass, and then only one; the same holds for the flat state vector passed to the time integrator.",
  "all mesh motions, orders, cell numbers, direction sets, sources, starts, interval lengths",
  "existence and uniqueness for a differential equation over all time courses",
  SP)
p("The solution of the boundary-driven shock problem",
  "Along a particle's path from the wall the angular flux fake_sedov_integrand is exp(-(integral of the opacity along the path)/mu) for particles sent out while the source was on and 0 otherwise, and it satisfies the transport equation with the opacity of sigma_func; it lies between 0 and 1. This holds for particles which leave the wall before the shock reaches it; for those leaving within a unit of distance after it, the value is too small. The scalar flux exists exactly when no direction is 0 or opposite to the shock speed (so every odd symmetric direction set fails), and the benchmark written out in run_functions is half of it.",
  "all shock speeds, wall positions, directions, positions and times",
  "an identity of functions over a continuum, with an integral along a path through a moving front",
  [SC+"uncollided_solutions.py: fake_sedov_integrand (93-101), integrate_quad_sedov_source (117-136), fake_sedov (288-292)", MM+"solver_functions/run_functions.py: 452-492, 526-535", SC+"opacity.py: sigma_function (129-160)"])
p("The time integration converges",
  "Any Runge-Kutta method whose weights have sum one and whose times lie in the step, explicit or implicit, applied to the slab equations, the slab equations coupled to a material or the spherical equations converges: for every accuracy there is a step length such that all runs with shorter steps, however the steps are chosen, from a start close enough stay within the accuracy of the trajectory at all times. Runs of explicit methods always exist, runs of implicit ones for short steps, and then only one; so the computed coefficients have a limit as the steps shrink, which is the unique trajectory.",
  "all methods, step sequences, mesh motions, orders, cell numbers, direction sets, sources, starts, interval lengths",
  "a limit over all step sequences",
  [SF+"main_functions.py: solve (183)", SC+"rhs_class.py: call", SC+"rhs_class_1.py: call"])
p("Which time integration keeps the stability of the slab equations",
  "For every algebraically stable Runge-Kutta method (nonnegative weights and b_i a_ij + b_j a_ji - b_i b_j positive semidefinite; the three-stage Radau method of scipy's 'Radau' and implicit Euler are) two runs with the same sources and the same steps, of any lengths, on any moving mesh, never move apart in the weighted squared norm, and without sources the norm never grows; implicit Euler reduces it by 1 + 2h(1-c) in each step. The same holds for the slab equations coupled to a material, in the norm with a quarter of the squared norm of the material energy added. No explicit method, so none of those named in the input files, has this property: each lets the norm grow for a decaying problem if the step is long enough.",
  "all methods, step lengths, mesh motions, orders, cell numbers, direction sets with nonnegative weights, sources, starts",
  "unbounded step lengths and step numbers, all methods of a class",
  [SF+"main_functions.py: solve (183)", SC+"rhs_class.py: call"])
p("The number of particles in a time step",
  "On a mesh at rest the number of particles after any Runge-Kutta step equals the number before plus the step length times the weighted sum over the stages of inflow minus outflow, removal and source, exactly and for every step length. On a moving mesh this fails: on an expanding mesh which no particle leaves, with pure scattering, trajectories keep the number but explicit Euler steps lose particles.",
  "all methods, step lengths, meshes, orders, cell numbers, direction sets with weights of sum one, sources, states",
  "an exact identity over all methods and step lengths",
  [SF+"main_functions.py: solve (183)", SC+"rhs_class.py: call"])
p("Implicit time steps of any length exist",
  "For Runge-Kutta methods with an invertible matrix whose inverse is positive definite after scaling of its rows (the three-stage Radau method and implicit Euler are) the stage equations of the slab equations, and of the slab equations coupled to a material, have exactly one solution for every step length, on every moving mesh, for scattering ratios up to one: every list of steps has exactly one run. In a multiplying medium this fails: with two secondaries per collision an implicit Euler step of one time unit does not exist although the trajectory does.",
  "all methods of the class, step lengths, step numbers, mesh motions, orders, cell numbers, direction sets with positive weights, sources, starts",
  "solvability of a linear system of any size for all step lengths",
  [SF+"main_functions.py: solve (183)", SC+"rhs_class.py: call"])
p("The steady solutions drawn beside boundary-source runs",
  "For the constant opacity the drawn curve is the flux of direction 1 which enters with value one. For the Gaussian opacity the drawn scalar flux is, for mirror-symmetric directions, the exact steady flux behind a Gaussian of standard deviation 1/2; the opacity the solver uses has standard deviation 2, so the curve is larger than the flux of the solver's problem at every point inside.",
  "all wall positions, points, direction sets",
  "an identity with a differential equation over a continuum, for all direction sets",
  [MM+"solver_functions/run_functions.py: boundary_source (205, 209), steady_state_gaussian_benchmark (342-349)", SC+"opacity.py: sigma_function (133-134)"])
p("The moving Gaussian solution",
  "For directions to the right moving_gaussian_shock solves the transport equation along every path with its moving Gaussian opacity, is one at the wall, lies between 0 and 1 and vanishes exactly ahead of the first particles. For directions to the left, in which nothing enters, it is positive.",
  "all directions, points and times",
  "a differential equation over a continuum",
  [MM+"solver_functions/run_functions.py: moving_gaussian_shock (435-450)"])
p("Tabulated benchmark values",
  "The table for the thick square source has one value per point, is mirror symmetric and, at time one, in the part the edges of the source have not reached, agrees to three digits with the growth of a uniform field with scattering ratio 0.9; for times other than 1 and 5 it is zero everywhere. In the table for the uniform slab without absorption the values leaving left and right add up to one in each direction except mu = 0.6, where they do not.",
  "all final times, all entries",
  "the tables are only drawn, no test reads them",
  [MM+"solver_functions/run_functions.py: olson_henderson_bench (417-427), siewert_bench (357-368)"])
p("Self-similar diffusion solutions",
  "The plane and dipole profiles, scaled back, and the Gaussian solution satisfy the diffusion equation for all positive times; the last tends to its Gaussian start as the time goes to zero, where the formula itself divides by zero. benchmarkfull ignores the position it is given. The direction-dependent part decays at the rate 1/epsilon^2 and has no net content for mirror-symmetric directions. loglog_converge returns p for errors C x^-p, and never looks at the error of the last run unless it starts with the first.",
  "all positions, times, diffusivities, widths, directions, refinement lists",
  "differential equations over a continuum",
  ["self_similar_diffusion.py: loglog_converge (13-27), benchmark .. noniso_part_bench (66-84)"])
p("The order of the time integration on a mesh at rest",
  "On a mesh which does not move, with a source which does not change in time, the error of the time integration of the slab equations, of the slab equations coupled to a material whose emission is proportional to its energy density (Su-Olson), and of the equations in the sphere is at most C d^p for steps of length up to d, with p = 1 for Euler's methods, 3 for RK23 and 5 for RK45 and Radau. The order five of RK45 is not exceeded: on a problem with one direction n equal steps leave an error of at least n^-5/10800.",
  "all orders, cell numbers, directions, weights, starts, step numbers and step lengths below a bound",
  "a rate as the step length tends to zero",
  [SF+"main_functions.py: solve (183)", SC+"rhs_class.py: call"])
p("The computed numbers converge to the exact solution",
  "For the slab equations with scattering ratio at most one, exact solutions which are smooth inside the moving cells and start from the projection: for steps of a consistent Runge-Kutta method short enough, runs exist and the squared L2 distance of the computed numbers from the exact solution exceeds the spatial bound of C120, of order 2M+1 in the cell width, by as little as wanted. On a mesh at rest with a constant source the distance is at most twice that bound plus a constant times the step length to the power 2p, p the order of the method.",
  "all meshes and motions, orders, directions, weights, solutions, sources, methods, step sequences",
  "a limit in the step length and the cell width over all exact solutions",
  A + [SF+"main_functions.py: solve (183)"])
p("Which opacity options can be used",
  "The option group sigma_func as the shipped mesh file spells it makes four opacities available (constant, gaussian, siewert1, siewert2, with the stated formulas); with linear or f_sedov on, or nothing on, the loader accepts the file and the first evaluation of the opacity at any point and time is a KeyError, because the code looks for fake_sedov. Every configuration loaded with the shipped file has opacity one. For any group a KeyError occurs exactly when a spelling that is missing is looked up before an option that is on; with all five spellings present the opacity is the formula of the option that is on.",
  "all option groups, points, times, problems and parameter files",
  "the failure depends on spellings in a file against spellings in the code; the tests use constant opacity",
  [SC+"opacity.py: sigma_function (129-160)", LS+"load_parameters.py: 127-132, dictionary_loader", MM+"input_scripts/mesh_parameters.yaml: sigma_func"])
p("The record of heat-wave positions",
  "derivative_saver records one position and time for each call at the last cell, each position the distance from the origin of a point handed over in the run, or zero. The point is the first stored one whose energy is closest to the largest difference quotient of everything stored in the run. It is therefore not where the profile is steepest, it changes with the unit of length, and it depends on earlier calls. With saving off every call records the origin.",
  "all sequences of calls, points and energies",
  "histories of any length",
  [SC+"rhs_class.py: derivative_saver (143-159)", SC+"rhs_class_1.py: derivative_saver (157-173)", SC+"radiative_transfer.py: T_func (90-91)"])
p("Gauss rules exist, are unique, and the Lobatto nodes found are near the true ones",
  "For every number of points there is exactly one Gauss-Legendre rule (increasing nodes, exact up to degree 2m-1); its nodes are the zeros of P_m, inside (-1,1), and its weights are positive and sum to 2. Between neighbouring nodes of the (n-1)-point rule, which the code takes as brackets, lies exactly one interior Gauss-Lobatto node, and there are no others. Every node that quadrature('gauss_lobatto') returns, from any brackets, is within (n-1) 1e-14 of a true one, and if the returned ones are more than twice that apart none is missed.",
  "all numbers of points, all starting brackets, all numbers of iterations",
  "the number of points is unbounded and the nodes are irrational",
  [SC+"functions.py: quadrature gauss_lobatto (628-649)", SC+"functions.py: newtons (692-701)", SC+"functions.py: find_nodes (183-206)"])
p("What the repository's own tests establish",
  "In exact arithmetic, with Gauss rules as documented: the tests of the normalised polynomials, of the orthonormality with quadrature and of the Chebyshev rule pass for all draws; the node tests pass exactly when the drawn cell is not empty, the edge value test exactly when none of its nineteen drawn widths is zero; test_return_sol never enters its loop and passes whatever its body does; test_finite_diff fails for every set of points in [-1,1] that ends at 1, because finite_diff_uneven differentiates (1-mu^2) u and the test expects the derivative of u.",
  "all random draws, Gauss rules, point sets",
  "it is about the tests",
  [MM+"tests/test_functions.py: test_normPns .. test_quadrature_chebyshev (31-244)", SC+"functions.py: finite_diff_uneven (575-603)"])
p("The angular differences are first-order accurate",
  "For increasing directions whose half-gaps (and distances from -1 and 1 at the ends) are at most h, and any angular flux with |psi''| <= K and |((1-mu^2) psi)''| <= G, the angular term of the right-hand side in the sphere differs from the derivative of (1-mu^2) psi by at most (K/2 + G) h at every direction, the first and the last included. For the isotropic flux the error at an inner direction is half the difference of the neighbouring gaps, so the order is not two on unequal directions.",
  "all direction sets, smooth fluxes and directions",
  "a rate over all smooth functions",
  [SC+"functions.py: finite_diff_uneven (575-603)", SC+"rhs_class_1.py: 275"])
p("Error records are filed and found again",
  "A complete study of a kept run (times 1, 5, 10, 1.25, 5/6 as printed, 31.6228 if coupled) is written by save_RMS as one record at its place (source, time, kind, options, order), replacing an older one and leaving every other dataset and file as it was; other runs leave everything as it was. A plotter of the same source, kind and order reads the rows back rounded to single precision if its file is a copy of the written one, the file has a group gaussian_IC, and its time reads like the folder: exactly when the time is a whole number given as an integer, or is 1.25 or 5/6 in a study over cells. Studies over orders of runs to 1 and 1.25 share one record. The plotter opens files in another folder than the savers write, so a new record never changes what it reads. Records with few directions have a reader in six cases. make_RMS_file makes files under names nothing opens and cannot run twice.",
  "all studies, files, plotters and histories",
  "file contents and names are unbounded; no test touches these methods",
  [LS+"save_output.py: save_RMS (46-100), save_RMS_P1_su_olson (102-154)", MM+"plots/make_plots.py: load_RMS_data (79-176)", LS+"build_output_framework_script.py: make_RMS_file (12-58)"])
p("Fits and pictures made of error records",
  "linregress as defined gives the line of least squares. If the errors from the second mesh on are C n^(-q), find_c returns C exactly; if they are C exp(-k M), find_c_semilog returns -k; the first point has no influence. For the six transport sources both fits stop with an error after any sequence of loads, because the errors of the energy density are never loaded. The order triangle has the slope of its order on logarithmic axes and lies at the fraction 1-1/dx of the fitted line; its label is the order only when that is whole. coeff_con returns the weighted mean over directions, which lies between the least and greatest coefficient for weights that are not negative, and rejects an array that still holds the material row.",
  "all records, constants, rates, orders and coefficient arrays",
  "exact recovery of a rate over all data; no test touches the plots",
  [MM+"plots/make_plots.py: find_c (47-58), find_c_semilog (60-76)", MM+"plots/plot_functions/order_triangle.py: order_triangle (12-38)", MM+"plots/plot_functions/coeff_con.py: coeff_con (10-33)"])
p("Coupled radiation and material: error of the semi-discrete solution",
  "For exact solutions of the radiation and material equations with the Su-Olson closure which are smooth inside the moving cells: their projections satisfy the equations of transport() and energy() up to the face defects of the projection. Started from the projection, with 0 <= c_a, c + c_a <= 1, the weighted squared distance of radiation plus a quarter of that of the material energy is at most 5/2 (K h^(M+1)/(M+1)!)^2 times ((N+1) sigma C^2 (t1-t0) + width of the domain): order 2M+1 in the cell width. Solutions of degree at most M in x are reproduced exactly.",
  "all meshes and motions, orders, directions, weights, coefficients, exact solutions and sources",
  "a bound for all exact solutions and mesh motions",
  A+[SC+"rhs_class.py: energy (203-215), transport (295-305)", SC+"radiative_transfer.py: su_olson_source (109-123)"])

p("Coupled radiation and material: the computed numbers converge",
  "For steps of a consistent Runge-Kutta method short enough, runs of the coupled equations exist and the squared distance of the computed radiation and material numbers from the exact solution exceeds the spatial bound of C155 by as little as wanted. On a mesh at rest with a constant source it is at most twice that bound plus a constant times the step length to the power 2p, p the order of the method.",
  "all meshes and motions, orders, directions, weights, solutions, sources, methods, step sequences",
  "a limit in the step length and the cell width over all exact solutions",
  A+[SC+"rhs_class.py: energy (203-215), transport (295-305)", SF+"main_functions.py: solve (183)"])

p("The worked examples and the test of the splines",
  "The hand-written system of the four-interval example is exactly the one the spline class builds for those knots and values, so elimination solves it and gives the natural spline. The hand-written system of the five-interval example is solvable but is not that of a natural spline: the curve it gives has jumps in its second derivative at the fourth and fifth knots. The error that the test on import prints is, for every number of knots k >= 2 and of test points, at most (2 pi/(k-1))^4/16; with the 50 knots of the file it is at most 17e-6.",
  "all numbers of knots and of test points",
  "the test prints a number and compares it with nothing",
  [SC+"cubic_spline.py: test_spline (128-146, 447), mcclarren_spline (170-248), mcclarren_spline_2 (250-346)"])

p("Accuracy of the splines",
  "Of all twice differentiable curves through the data the spline has the least integral of the squared second derivative. For a function with second derivative bounded by K and knots at most h apart, the spline is within K h^2 of it everywhere; where the fourth derivative is bounded by K and the second derivative vanishes at both ends it is within K h^4/16. Without the condition at the ends it is not: for the parabola on n equal pieces of [0,1] the error in the first piece is at least h^2/16.",
  "all numbers and positions of knots, all functions with the stated derivatives",
  "a bound over all functions and knots, and a minimum over all curves",
  [SC+"cubic_spline.py: class cubic_spline (16-125), eval_spline (97-125)"])

p("Spheres: error of the semi-discrete solution",
  "For an exact solution of the spherical transport equation which is smooth inside the moving cells, let the projection be the expansion nearest to it in the r^2-weighted square norm of each cell (it exists, is unique and the squared distance of any expansion splits accordingly). The r^2-weighted squared distance of a run of the equations of the code from the projections is at most exp(k T) times its value at the start plus exp(max(k,0) T) g T, k = gam + 2 (kappa sigma_s - 1) + 2 lam, where g bounds what the projections leave at the faces, in the angular differences and in the scattering sum, and gam is zero when every direction lies in the middle of its angular cell or above.",
  "all spheres, cell motions, orders, direction sets, weights, exact solutions, sources and time spans",
  "a bound for all exact solutions and mesh motions",
  [SC+"rhs_class_1.py: call (175-366)", SC+"numerical_flux.py: make_LU", SC+"matrices.py: make_all_matrices", SC+"functions.py: finite_diff_uneven (575-603)"])

p("Spheres: order of the error",
  "If M+1 derivatives of the exact solution in the radius are bounded by Kd and cells are at most h wide, the r^2-weighted projection is within eta = (1 + 3 (M+1)^3) Kd h^(M+1)/(M+1)! of it, uniformly in the position of the cell, the centre included. The squared distance of a run of N cells inside radius R from the exact solution is then at most exp(k T) times its start plus exp(max(k,0) T) 2 T (N R^2 sg eta^2 + R (alpha + 2 eta/w)^2/lam + sigma_s^2 R^3 beta^2/lam) plus 2 R^3 eta^2, with w the least angular width, alpha the error of the angular differences and beta that of the scattering sum on the exact solution, sg the largest speed of particles relative to faces.",
  "all spheres, cell motions, orders, direction sets, weights, exact solutions, sources and time spans",
  "a rate over all smooth solutions and meshes",
  [SC+"rhs_class_1.py: call (175-366)", SC+"matrices.py: make_all_matrices", SC+"functions.py: normTn"])

p("Spheres: convergence in radius and angle",
  "With K directions in the middles of equal angular cells and a solution of the spherical transport equation with M+1 bounded derivatives in the radius and two in the direction cosine, the squared distance is at most exp(2 sigma_s T) times (the start plus 2 T (N R^2 sg eta^2 + R ((2 F0 + 4 F1 + 3/2 F2)/K + K eta)^2 + sigma_s^2 R^3 (F1/K)^2)) plus 2 R^3 eta^2. Runs started from the projections come as close to the solution as wanted when 1/K, K h^(M+1) and N h^(2M+2) go to zero.",
  "all spheres, cell motions, orders, numbers of cells and directions, exact solutions and sources",
  "a limit in cell width and number of directions over all smooth solutions",
  [SC+"rhs_class_1.py: call (175-366)", SC+"functions.py: finite_diff_uneven (575-603)", SC+"numerical_flux.py: make_LU"])

p("Spheres: the computed numbers converge",
  "Steps of a consistent Runge-Kutta method which are short enough exist from the projections of a solution, and the r^2-weighted squared distance of the numbers they end with from the solution exceeds the bound of C160 (with zero start) by as little as wanted, on a moving mesh. On a mesh at rest with a source constant in time the distance is at most twice that bound plus a constant times the step length to the power 2p for a method of order p. With directions in the middles of equal angular cells, for every eps there is a bound on 1/K, K h^(M+1) and N h^(2M+2) under which there is a step length such that the numbers of every run with shorter steps are within eps of the solution of the spherical transport equation.",
  "all spheres, cell motions, orders, numbers of cells and directions, consistent Runge-Kutta methods, step sequences, exact solutions and sources",
  "a limit in step length, cell width and number of directions over all smooth solutions",
  [SC+"rhs_class_1.py: call (175-366)", SC+"functions.py: finite_diff_uneven (575-603)", SF+"main_functions.py: solve"])

p("The test of the closed form for two directions",
  "The integrand of test_s2_sol has, for every position and time, the integral of the emission seen along the two beams, so quadrature of it is the reference uncollided_su_olson_s2 must equal. The test prints zero whatever times it is given: its 500 positions lie between 50 and 60, outside the region where the closed form over-counts (C39). Up to t = 49.5 sqrt 3, default 10 included, nothing has arrived there and zeros are compared with zeros. The number printed as RMSE is the size of the mean difference: it is never more than the root mean square and can be zero when that is not.",
  "all positions, times, source widths and durations; all arrays of differences",
  "it is a statement about what the test itself can detect",
  [SC+"functions.py: su_olson_s2_integrand (318-319), test_s2_sol (400-419), uncollided_su_olson_s2 (254-316)"])

p("The first version of the closed form for two directions",
  "uncollided_su_olson_s2_2 returns zero while the source is on, which is right exactly where nothing has arrived, |x| >= x0 + t/sqrt 3. After the source has been switched off it is too large by exp(-t)/2 times exp(m) - 1, m the smaller of t0 and the positive part of t - sqrt 3 (|x| + x0), so it is right exactly when t <= sqrt 3 (|x| + x0).",
  "all positions, times, source widths and durations",
  "equality of piecewise formulas and integrals for all arguments",
  [SC+"functions.py: uncollided_su_olson_s2_2 (368-397)"])

p("The formula for wide Gaussian sources",
  "uncollided_s2_gaussian_thick is the integral over the whole duration t0 of the source of the two-direction emission with each exp(-u^2/sigma^2) replaced by its first four terms. Once the source is off (t >= t0) it is never above uncollided_s2_gaussian and below it by at most (exp(t0-t) - exp(-t)) ((|x| + t/sqrt 3)/sigma)^8/24. While the source is on it also counts what is emitted later: at t = 0 it is not zero.",
  "all positions, times, widths and durations",
  "an identity of a formula of a hundred terms with an integral, and an error bound, for all arguments",
  [SC+"functions.py: uncollided_s2_gaussian_thick (330-331), uncollided_s2_gaussian (321-328)"])

p("Orthonormality with the weight of the test",
  "On every cell a < b the product of two of the functions normTn (orders up to 12) with weight_func_Tn between them has the improper integral 1 if the orders are equal and 0 otherwise. test_ortho_Tn therefore passes for every draw if the quadrature returns improper integrals.",
  "all cells, all pairs of orders the code implements, all draws",
  "the test draws four cells and orders up to 4, and integrates numerically over singular ends",
  [SC+"functions.py: normTn (505-516), weight_func_Tn (519-521)", MM+"tests/test_functions.py: test_ortho_Tn (87-102)"])

p("Names of the problems",
  "source_name_finder gives for each of its sixteen names the array with a one at the place of the name and zeros elsewhere, and refuses all other names. problem_identifier names the first of the first five entries that is one, and without one returns an unassigned name. The two do not fit: the manufactured solution is called a Gaussian source, and the Gaussian source and the ten problems after it have no name.",
  "all strings, all arrays of at least five entries",
  "all strings and arrays",
  [MM+"misc_functions.py: source_name_finder (3-17)", SC+"functions.py: problem_identifier (333-348)"])

p("The estimate of the wave speed",
  "For a flux that falls with the position and rises with time the estimate of wavespeed_estimator is the growth of the sum of the flux times dx/dt over half of u_0 + 2 u_1 - u_(n-2) - 2 u_(n-1). For a front of any falling shape with constant value behind it and zero ahead of it, moving at speed v by whole positions, the estimate is 2/3 v times the ratio of the step to the first step: the index -1 at the first position takes the last one and adds half the height again. The first entry is never a number.",
  "all numbers of positions, fluxes, times, front shapes and speeds",
  "all front shapes, and a wrapped index that raises no error",
  [SF+"wavespeed_estimator.py: wavespeed_estimator (14-69)"])

p("Derivative estimates and the search for the edge",
  "derivative_estimator is the backward difference inside and zero at both ends, off by at most K h/2 where the second derivative is bounded by K; second_derivative_estimator is the central second difference, zero at the first and the last two places, off by at most K h^2/12 where the fourth derivative is bounded by K. find_edge returns the nearest entries left and right of the start that are at most 1e-13 in size, counting on from the other end when it passes entry 0, and raises an IndexError exactly when a search finds none; the left edge can be the last entry of the array.",
  "all functions with the stated derivatives, all arrays and starting places",
  "bounds over all functions; loops without a stated bound",
  [SF+"wavespeed_estimator.py: derivative_estimator (74-78), second_derivative_estimator (80-84), find_edge (86-120)"])

p("Smoothing the wave positions",
  "One call of smooth_wave_loc_array replaces every entry but the last by the larger of itself and the next one. The row is not falling afterwards in general; after as many calls as entries less one it is, and then every entry is the largest of the original entries from its place on. With index checks the row [0,3,:] does not exist; compiled without them it is the fourth row packed by the driver, the positions of the temperature wave.",
  "all arrays",
  "all arrays and numbers of passes",
  [SC+"mesh.py: smooth_wave_loc_array (269-272)"])
p("Time quadrature of Gaussian sources",
  "With a rule in time that is exact for polynomials of degree 2N, has weights not negative and nodes inside (-1,1), the uncollided flux of the Gaussian source differs from the direction integral of the flight of the source (the source used with the treatment off) by at most 2 min(t,t0) B^(N+1)/(N+1)! with B = t + ((|x|+t)/sigma)^2. With two directions the same bound holds, and up to width 5 the value is exact. With Gauss rules of n points the error tends to zero.",
  "all positions, times, widths, windows and such rules",
  "bounds over all problems; the reference integral has no closed form",
  [SC+"uncollided_solutions.py: integrate_quad_gaussian_source (87-91), gaussian_source_integrand (103-115), gaussian_source_uncollided_solution (139-148), gaussian_s2_thick_integrand (272-277), gaussian_s2 (279-286)", SC+"sources.py: gaussian_source (109-115)", SF+"main_functions.py: solve (123)"])

p("The uncollided flux is the flight of the data it replaces",
  "In a slab, for each source type, the uncollided flux that is added with the treatment on is the free flight of the initial condition or source that is used with the treatment off. Sources and the shell: strength times it once (square source with two directions where C39 holds, Gaussian source up to C171, shell over t+1e-12). Plane pulse: up to the guard 1e-12 where the whole starting square is in view, zero outside the front. Square and Gaussian pulse: up to the guard, times the strength once more, so right only for strength 1. It fails for the one-sided Gaussian pulse, which is given the flight of the pulse in all directions, and for the point pulse in a sphere, of which only the part 2e-10/t is kept.",
  "all positions, times and settings",
  "compares two code paths of two different runs over all settings",
  [SC+"uncollided_solutions.py: uncollided_solution (302-336), point_source (294-300)", SC+"mutables.py: function (47-81)", SC+"sources.py: square_source (102-107), gaussian_source (109-115)"])
p("Moments of the external sources",
  "In a slab with the treatment off, a cell inside the square source gets the moments of the source exactly while the source is on, and a cell outside it, or any cell after it is switched off, gets zero. A cell cut by the end of the source can get wrong moments with a rule of any stated exactness. Moments of the Gaussian source are off from the true ones by at most a bound falling like a factorial in the exactness of the rule, and are zero after the source is off. Moments of the manufactured source obey a bound of the same kind; without its flag the array is left alone.",
  "all cells, times, moments, strengths, widths and rules of the stated exactness",
  "bounds over all cells and rules; the true moments have no closed form",
  [SC+"sources.py: integrate_quad (79-81), integrate_quad_not_isotropic (90-92), MMS_source (94-100), square_source (102-107), gaussian_source (109-115), make_source (118-149), make_source_not_isotropic (151-154)"])

p("Initial coefficients of smooth pulses",
  "For every slab mesh with rising edges and the treatment off, each coefficient built for a Gaussian pulse differs from the true coefficient of half the pulse in every direction (of the whole pulse to the right and none to the left when the last entry of source_type is 1) by at most 2 sqrt((2j+1)(b-a)) B^(N+1)/(N+1)! times its size, where B is the largest squared distance over the squared width and the rule is exact to degree 2N+M. The same holds for the self-similar start, which is sqrt 2 times the solution of the diffusion equation of unit content at time 0.01. The row of the material energy holds the coefficients of the constant exactly.",
  "all meshes, cells, directions, moments, strengths, widths and rules of the stated exactness",
  "bounds over all meshes and rules; the true coefficients have no closed form",
  [SC+"mutables.py: function (47-81), gaussian_IC (106-108), gaussian_IC_noniso (110-112), self_sim_plane (125-132)", SC+"build_problem.py: integrate_quad (154-157), integrate_e (165-167), make_IC (172-219)"])
p("The first right-hand side",
  "The call of rhs_class.py returns for no input with at least one cell and one direction: make_LU is given one argument too few, a coupled run with two or more directions also hands make_P one row too many, an opacity that is not constant asks for a key that is not there or reads a name that is not bound, and the dimensional branch divides by a field that is never assigned. With the two calls repaired, the slab rows for a constant opacity are those of the equation with and without the treatment of the uncollided flux, and the coupled rows are those of the coupled equations. With epsilon given, the particles of a cell at rest balance with 1/epsilon at the faces and 1/epsilon squared for collisions; on a moving mesh a constant field grows at 2/epsilon - 1 times the right rate. The coupled dimensional row does not keep a field in balance: the streaming inside the cell carries 299.98 and the faces do not. The spherical row removes no particles.",
  "all meshes, states, settings, directions and moments",
  "statements over all inputs of code that cannot be run, and over all repaired runs",
  [SC+"rhs_class.py: call (160-307)", SC+"phi_class.py: make_P (70-86)", SC+"numerical_flux.py: make_LU (203-275)"])

p("Dipole and spherical pulses as reported",
  "On a static mesh with an even number of cells, an edge at 0 and two equally wide middle cells of width h, the initial state of the dipole is reported as -strength/(2h) in the cell left of 0, +strength/(2h) in the cell right of it and zero elsewhere, in every direction, whenever some cell holds -x0; if none does the search runs off the array. On a moving mesh or with an odd number of cells the width is zero and the coefficients are 0/0. In a sphere the point pulse on a static mesh of evenly many cells is reported as strength/h^3 in the first cell of width h, whatever the configured radius, and the shell as half of strength over the volume of the ball, inside it, if its radius is an edge.",
  "all meshes, directions, moments, strengths, points and rules of the stated exactness",
  "statements over all meshes and rules; runs sample a few",
  [SC+"mutables.py: function (47-81), point_pulse (83-85), shell_IC (94-99), dipole (119-123)", SC+"build_problem.py: integrate_quad (154-157), integrate_quad_sphere (159-162), make_IC (172-219)"])

p("The first mesh",
  "In the first mesh class the reported edge speeds are the derivatives of the edge positions, for the square root motion only after 1e-10; before that the edges stand still while speeds are reported. The proportional mesh keeps N+1 increasing edges whose outermost run ahead at the configured speed, however often and in whatever order it is moved. The square source mesh keeps the edges of the source at rest and all edges increasing for a multiple of four cells; for any other number of cells but two the constructor or the first move fails. The static meshes: the even one holds the light cone iff the speed is at least one; the one for a square source with more than four cells has 4*floor(N/4)+1 edges, is increasing iff x0 > 9 v sqrt(tf), and its middle edge is at v sqrt(tf) instead of 0. Configurations no branch covers leave all edges at zero.",
  "all cell counts, widths, speeds, times and sequences of moves",
  "statements over all cell counts, times and parameters; nothing runs the class any more",
  [SC+"mesh_old.py: __init__ (39-52), square_source_init_func (65-79), move (129-141), initialize_mesh (170-212)"])
p("Helpers nothing calls",
  "The abandoned Chebyshev matrix builder computes, for one moment per cell and once math is imported, the mass, geometric, edge motion and streaming integrals of the sphere; as the file stands the first three methods fail, and with more moments its matrices are not those integrals. boundary_source_init_func_outside computes what the method of the mesh class computes. set_func writes each listed position and speed at its index, the later of two for one index, and nothing else. The Su-Olson loader returns the three columns of its table at the time one and nothing at any other. mesh_cluster_blast_wave never returns.",
  "all cells, edge motions, meshes, index lists and tables",
  "nothing runs these functions; the statements are over all inputs",
  [SC+"chebyshev_matrix_builder.py: make_mass (31-36), make_J (59-61), make_G (87-93), make_L (111-112), make_VV (125-147)", SC+"mesh_functions.py: positivize (11-14), set_func (18-25), boundary_source_init_func_outside (122-138), mesh_cluster_blast_wave (141-144)", LS+"load_bench_su_olson.py: 23-40"])
p("Time steps and negative values",
  "With one moment per cell in a slab, Euler steps keep a nonnegative angular flux nonnegative on any moving mesh, for nonnegative weights, sources and entering values, if each step times (1 + half the relative widening of the cell + the rate of leaving it through its moving ends) is at most one. Implicit Euler steps do so for any length if the step times (half the relative widening - 1 + cc times the sum of the weights) stays below one, so always on a mesh at rest with at most as much scattered as arrives, where they also let no value exceed the largest initial or entering one. Longer steps of Euler's method and of RK45 do produce negative values.",
  "all meshes, motions, directions, weights, sources, step lists and states",
  "a statement over all runs; a test sees single runs and cannot tell a step below the bound from luck",
  [SC+"rhs_class.py: call (232-244)", SF+"main_functions.py: solve (183)", SC+"numerical_flux.py: make_LU (203-275)"])
p("Radiation and material stay nonnegative together",
  "With one moment per cell in a slab coupled to a material, the angular flux and the material energy of a nonnegative state stay nonnegative on any moving mesh, for nonnegative weights, scattering and absorption ratios, sources and entering values: along the exact solution in time; for Euler steps if each step times (1/l + half the relative widening + the rate of leaving) and times (c_a/l + half the widening + the rate at which the moving ends sweep over resting material) is at most one; for implicit Euler steps of any length on a mesh at rest when the weights add up to at most one and cc times their sum plus c_a is at most one, and otherwise under a bound on the step which does not involve the directions.",
  "all meshes, motions, directions, weights, ratios, sources, step lists, states and times",
  "a statement over all trajectories; a negative material energy has no temperature and would stop a run only by accident",
  [SC+"rhs_class.py: call (203-215, 295-305)", SC+"numerical_flux.py: make_LU (203-240)", SF+"main_functions.py: solve (183)"])
p("Following a wave with the edges",
  "recalculate_wavespeed, called in a new interval of the table of wave positions, gives the last three edges speeds which take them to the temperature wave and its pads exactly at the entry after the interval, or let them rest where they are already; the five speeds that move edges are never negative and the edges stay in order during the whole interval; inside one interval, and so before the first entry, nothing is computed again; past the last entry but one the call fails. thick_square_moving_func moves the edges of a mesh with a multiple of four cells with the slopes of the two waves, keeps a mirrored mesh mirrored over any sequence of calls and the distance to a front of constant velocity, but takes the slope of the interval after the current one; other even numbers of cells from ten on fail.",
  "all tables, meshes, pads, times and sequences of calls",
  "neither method has a caller, so no run reaches them; the slope of the wrong interval is invisible for uniform fronts",
  [SC+"mesh.py: recalculate_wavespeed (343-412)", SC+"mesh_functions.py: thick_square_moving_func (27-86)"])
p("Upper bounds of radiation and material together",
  "With one moment per cell in a slab at rest coupled to a material, without sources, with nonnegative weights of sum at most one and cc times their sum plus c_a at most one, the angular flux never exceeds K and the material energy never exceeds 2 K, where K bounds the initial and the entering angular flux and half of the initial material energy: along the exact solution in time; for implicit Euler steps of any length; and for Euler steps of length at most 1/(1/l + |mu|/width) and l/c_a.",
  "all meshes at rest, directions, weights, ratios, step lists, states and times",
  "a statement over all trajectories; tests compare single profiles and see an overshoot only where it is large",
  [SC+"rhs_class.py: call (203-215, 295-305)", SC+"numerical_flux.py: make_LU (203-240)", SF+"main_functions.py: solve (183)"])
p("Two abandoned meshes of the thick source",
  "thick_square_init_func calls a method the class does not have, so it fails for every number of cells but four and five, and with four both outermost edges are left at zero between the edges of the source. With set_func as a method it would give, for a multiple of four cells from eight on, a mirrored mesh with the edges of the source at rest, the outermost edges 2e-5 outside of them and moving out with the speed, whose edges stay in order until the inner ones come within 2e-5 of crossing the half-width; if half of the number of cells is odd it fails except for ten and eleven cells. simple_thick_square_init_func_2 gives for any multiple of four cells a mesh in order and at rest with the edges of the source among its edges and its ends 1e-14 outside.",
  "all cell counts, widths, speeds, tables and times",
  "neither method has a caller, so no run reaches them; the statements are over all cell counts and times",
  [SC+"mesh.py: simple_thick_square_init_func_2 (620-636), thick_square_init_func (677-754)"])
p("The error in time is proportional to the longest step on moving meshes",
  "For a slab, with or without a material, and for a sphere on any moving mesh whose edge velocities and source coefficients are Lipschitz in time, and for every Runge-Kutta method whose weights add up to one and whose nodes lie in the step, there is a constant, independent of the steps, such that at every time the result differs from the exact solution in time of the discrete equations by at most the constant times (error of the start + longest step), however the steps are chosen, once they are short enough. In particular n equal steps of an explicit method in a slab from the exact start leave an error of at most a constant over n at every time reached.",
  "all meshes, motions, directions, weights, sources, methods, step lists, starts and times",
  "a rate with one constant for all step lists; a test sees two or three step lengths of one configuration",
  [SF+"main_functions.py: solve (183)", SC+"rhs_class.py: call (203-215, 295-305)", SC+"numerical_flux.py: make_LU (203-240)"])
p("Both errors together on moving meshes, with a rate in time",
  "The squared distance, summed over the directions, between the numbers any consistent Runge-Kutta method produces on a moving mesh and the exact solution of the transport equation, piecewise smooth with its fronts on the faces, is at most twice the bound in the cell width (C120; C155 with a material) plus a constant times the square of the longest step, for all step lists short enough, if the edge velocities and the source coefficients are Lipschitz in time; the latter are if the source is Lipschitz in place and time.",
  "all meshes, motions, orders, directions, weights, sources, exact solutions, methods and step lists",
  "needs the exact solution and one constant for all step lists; a test compares one run with one table",
  [SF+"main_functions.py: solve (183)", SC+"rhs_class.py: call (203-215, 295-305)", SC+"numerical_flux.py: make_LU (203-240)"])
p("The number printed for the boundary-driven shock",
  "fake_sedov_benchmark prints the root of the mean, over all output times, of the squared distance between the flux at that time and the benchmark of the final time at fifty equidistant points. With one output time this is the error at the final time; otherwise the error at the final time is at most sqrt(number of times) times the number, and 0 is printed exactly if the flux of every time agrees with the benchmark of the final time. A run whose final flux is exact can print a number other than 0. A number is printed for all rows of matching lengths if no direction is 0 or opposite to the shock speed.",
  "all run results, direction sets, times, shock speeds",
  "the averaging over times is silent: the printed number is plausible for every run",
  [MM+"solver_functions/run_functions.py: RMSE (36-37), fake_sedov_benchmark (515-553)"])
p("The free flight of the uniform ball keeps its particles",
  "Integrated over the volume, the uncollided flux of the shell initial condition is exp(-t), for every time and ball radius, and it vanishes farther out than the fastest particle. The copy of the formula in shell_convergence_plots.py is the same function for a ball of radius 1/2; the copy in uncollided_shell_test.py leaves out the absorption and is 3/pi times too large, so it holds 3/pi particles. The study in shell_convergence_plots.py compares runs with 3, 5, 10 and 15 cells at time 1, and at time 5 four times the same run with ten cells.",
  "all radii, times, outer radii; all stored runs and benchmarks",
  "an integral over a continuum with case distinctions; nothing compares the copies",
  [SC+"uncollided_solutions.py: shell_IC_uncollided_solution (227-239)", "uncollided_shell_test.py: shell_IC_uncollided_solution (7-19)", "shell_convergence_plots.py: shell_source_convergence (19-47), shell_IC_uncollided_solution (50-64)"])
p("Error of the reported scalar flux",
  "The scalar flux that make_phi reports, as a function of the position, differs in squared L2 norm from the scalar flux of the exact solution by at most the weighted squared distance of the angular fluxes. For coefficients from a consistent Runge-Kutta method on a moving slab mesh, with or without the material, this is at most twice the bound of the space discretization, of order h^(2M+2), plus a constant times the square of the longest step. The report succeeds at every list of points.",
  "all consistent tableaux, meshes, orders, angles with nonnegative weights of sum 1, exact solutions, step sequences, lists of points",
  "the constant is uniform over all step sequences; the tests compare single runs at sampled points",
  [SC+"make_phi.py: make_phi (53-72)", SF+"main_functions.py: solve (183, 217, 231-243)", SC+"rhs_class.py: call (203-215, 295-305)"])
p("Both errors together in the sphere, with a rate in time, and the reported scalar flux",
  "On a moving spherical mesh the squared distance, weighted with r^2, of what a consistent Runge-Kutta method computes from the exact solution is at most twice the bound for space and angle plus a constant times the square of the longest step. The scalar flux that make_phi reports then differs from the weighted sum of the exact angular fluxes by at most half the square of kappa times that, kappa being the growth factor that compares the quadrature weights with the widths of the angular cells (1 for evenly spaced directions). The report succeeds at every list of points.",
  "all consistent tableaux, moving meshes, directions, exact solutions, step sequences, lists of points; order at most 10",
  "the constant is uniform over all step sequences; the tests have no exact solution of the spherical problem",
  [SC+"make_phi.py: make_phi (53-72)", SF+"main_functions.py: solve (183, 217, 231-243)", SC+"rhs_class_1.py: call (175-366)"])
p("The reported scalar flux point by point, and the printed root mean square error",
  "At every point of the mesh the scalar flux that make_phi reports differs from that of the exact solution, squared, by at most (2 + 4(M+1)^2) times the squared error of the Taylor polynomial on a cell plus 4(M+1)^2/h0 times the squared L2 distance of the angular fluxes, h0 being the smallest cell. After a run with a consistent Runge-Kutta method on a moving slab mesh this is a quantity of order h^(2M+2)/h0 plus a constant times d^2/h0, d being the longest step. The root mean square error over any list of points against the exact solution has the same bound.",
  "all consistent tableaux, meshes, orders, angles with nonnegative weights of sum 1, exact solutions, step sequences, nonempty lists of points of the mesh with the cells make_phi takes for them",
  "a bound in terms of step and cell sizes for all lists of points; the tests look at single runs",
  [SC+"make_phi.py: make_phi (53-72)", SF+"main_functions.py: solve (183, 217, 231-243)", MM+"solver.py: RMS (243, 268, 308)"])
p("The reported angular flux and the exit distribution point by point",
  "At every point of the mesh the angular flux in psi_out differs from the exact one, squared and times the weight of its direction, by at most the bound of C190; so do the entries of the exit distribution at the two outer edges. The exit scalar fluxes have that bound too. After a run with a consistent Runge-Kutta method on a moving slab mesh this is of order h^(2M+2)/h0 plus a constant times d^2/h0. The reports succeed.",
  "all consistent tableaux, meshes, orders, angles with nonnegative weights of sum 1, exact solutions, step sequences, lists of points",
  "a bound in terms of step and cell sizes for all inputs; no test looks at the exit distribution",
  [SC+"make_phi.py: make_phi (53-72), get_exit_dist (91-112)", SF+"main_functions.py: solve (183, 217, 231-245)"])
p("The report with the uncollided part: the errors of the sum",
  "With the uncollided solution switched on, make_phi adds its scalar flux to the collided one. Whenever the collided part is within the bound of C190 of the exact collided scalar flux at every list of points, the sum is within the same bound of the sum of the exact parts, point by point and in the root mean square error; in particular after a run with a consistent Runge-Kutta method of the equation for the collided part, with c times the uncollided flux as source, on a moving slab mesh.",
  "all consistent tableaux, meshes, orders, angles, exact solutions, uncollided solutions, step sequences, nonempty lists of points of the mesh",
  "a bound in terms of step and cell sizes for all inputs; the tests look at single runs",
  [SC+"make_phi.py: make_phi (53-72)", SF+"main_functions.py: solve (183, 217, 231-243)", SC+"rhs_class.py: call (259)", MM+"solver.py: RMS (243, 268, 308)"])
p("The curves drawn for the moving Gaussian",
  "After a run with one output time moving_gaussian_shock_benchmark gives two curves at 25 equidistant points from the first position to the last: one for direction 1 and one for the direction of the run nearest to 0.6, the first of two equally near ones. Whenever some direction lies in (0, 1], the final time is positive and no position lies left of the wall, it succeeds; both curves are one at the wall, lie between 0 and 1 and vanish exactly ahead of the first particles of their direction. With two Gauss-Lobatto directions both curves coincide. After a run with several output times it never succeeds, so no run serves both this comparison and fake_sedov_benchmark.",
  "all direction sets, position lists and tables, final times",
  "nothing calls the method and it only draws; the choice of direction depends on the quadrature set",
  [MM+"solver_functions/run_functions.py: moving_gaussian_shock_benchmark (497-513), get_results (290-303), fake_sedov_benchmark (515-520)", SF+"main_functions.py: solve (246, 256)"])
p("Running the square pulse in all variants",
  "When run_all ends normally it has solved the square pulse with the uncollided solution on a moving and a static mesh and then without it on both, all levels and repetitions of each, and the run object holds the finest level of the last variant only. When a variant raises, the later ones are not run and the run object keeps what it had before, or holds the finest level of a variant that ended.",
  "all parameter files with at least one repetition and one level, all solver results, all earlier states of the run object",
  "the solver's results are arbitrary and nothing calls the method",
  [SF+"run_functions.py: run_all (306-331), square_IC (78-93), get_results (290-303)"])
p("The tests of the Chebyshev matrix builder",
  "As the file stands the tests of the mass matrix and of J raise a NameError for every size; the tests of G, L and VV fail for the size M = 3 they are written for and compare nothing for any other. With math imported each of the five still passes exactly at the sizes where it compares nothing. The first entries expected for the mass matrix and for J are the integrals of r^2 and r over the cell, the class gives them divided by pi times the cell width.",
  "all sizes M and N read from the coefficient files; all cells for the normalisation",
  "they are tests, and no runner collects them",
  [SC+"chebyshev_matrix_builder.py: mass_builder_test, J_builder_test, G_builder_test, L_builder_test, VV_builder_test (152-264)"])
with open(os.path.join(os.path.dirname(__file__), "..", "properties.jsonl"), "w") as f:
    for x in P: f.write(json.dumps(x) + "\n")
print(len(P))
