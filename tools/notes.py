NOTE["C01"] = "All configurations, all call sequences."
NOTE["C02"] = "Positive part for thin meshes; the boundary-source initialiser with non-zero shock speed violates it (witness in the _refuted theorem)."
NOTE["C03"] = "Size claim, failure claim for all other N, and the silent wrong size of the infinite-domain square source (witness N=6)."
NOTE["C08"] = "The theorems state the defect: a reported velocity without motion, and the all-zero mesh of sources without an initialiser branch."
NOTE["C09"] = "The theorem states the defect (zero-width cells at t=0)."
NOTE["C13"] = "History freedom for four movers; witness of history dependence for the finite-domain source mover."
NOTE["C14"] = "Freeze, jump at tfinal and history dependence of the stopping place."
NOTE["C16"] = "Needs at least two cells and increasing edges."
NOTE["C24"] = "Stated for the slab update function (explicit total cross-section 1, as in the code); the dispatcher that decides whether it is reached is C26."
NOTE["C31"] = "Orders 0..12 as tabulated, all higher ones rejected."
NOTE["C68"] = "Single-cell meshes gate the right end by the left switch (witness)."
NOTE["C70"] = "Speaks of the function assembling the update; see C26 for the dispatcher."
NOTE["C21"] = "All 121 tabulated entries; orders above 10 have no entry and the matrix construction fails. The 13 decimal literals of the file are modelled by the fractions they round (C21_literals: relative error below 2^-52)."
NOTE["C22"] = "All 121 tabulated entries, and the identity linking the mass-rate table to the motion table (moving-domain product rule)."
NOTE["C25"] = "Hypotheses: the coefficient tables (not in the repository) hold the integrals they are named after, numpy inverts the mass matrix, the coefficients move as the right-hand side says. C25_example exhibits such a configuration."
NOTE["C26"] = "The theorem states the defect: identity derivative, exponential solution; or the direction check fails."
NOTE["C27"] = "The theorem states the defect."
NOTE["C28"] = "Characterisation: the weights conserve iff proportional to the midpoint widths; Gauss weights refuted by a three-point witness."
NOTE["C29"] = "Exact value, exactness criterion per direction and for the whole set; Gauss directions refuted."
NOTE["C30"] = "finite_diff_uneven_2 positive; angular_deriv characterised (exact for linear data iff gap ratio sqrt 2) and refuted."
NOTE["C67"] = "All numbers of directions; asymmetric sets are rejected."
NOTE["C73"] = "Hypotheses as for C25."
NOTE["C32"] = "Reference derivative for orders up to 11; the physical derivative has a further factor 2/(b-a) (refuted witness), orders above 11 give 0."
NOTE["C33"] = "All numbers of points; exact below degree 2n and not at 2n."
NOTE["C34"] = "Any rule with more than M Chebyshev points, in particular the solver's 6M+1; fails above order 12."
NOTE["C35"] = "Hypothesis on numpy's leggauss: exact up to degree 2M."
NOTE["C36"] = "Slab: contract on leggauss (n increasing nodes strictly inside (-1,1)); sphere: no hypothesis."
NOTE["C38"] = "Also termination and, for continuous functions, a true root within the tolerance."
NOTE["C76"] = "newtons2 refuted as an iteration by a witness."
NOTE["C77"] = "Exactness under the stated condition on the root finder; end-point, n<=2 claims unconditional."
NOTE["C39"] = "Exact region, exact size of the over-count elsewhere, and a witness."
NOTE["C40"] = "Contract on the exponential integral: derivative e^y/y on negative reals (expi_contract_holds exhibits one)."
NOTE["C41"] = "Also the exact square source for more than two directions."
NOTE["C42"] = "Also exact up to the guard 1e-12 for all t>0."
NOTE["C43"] = "Powers of the strength in flux and source for every source kind; doubling refuted by a witness."
NOTE["C45"] = "Success of the build proved as well (sphere: order at most 12)."
NOTE["C79"] = "Contract on erf: value 0 at 0 and derivative 2/sqrt(pi) exp(-y^2) (erf_contract_holds exhibits one)."
NOTE["C80"] = "Exact for t>0; start value refuted."
NOTE["C82"] = "Point pulse: total proved and normalisation refuted by a witness."
NOTE["C83"] = "Two-cell loss is a witness in the _refuted theorem. The dipole subtracts arrays of truth values, which numpy alone refuses; the model takes them as the numbers 0 and 1, as compiled code is assumed to do."
NOTE["C84"] = "Exact relation and witness of the deficit."
NOTE["C47"] = "The theorems state the defect (sum of all contributions) and a witness; constant opacity positive."
NOTE["C48"] = "Moments change exactly when an edge of the cell changes; witness of a stale moment."
NOTE["C50"] = "Both signs of the energy; also what the other closures do."
NOTE["C85"] = "Contract on the rule: exact to degree 4M+1 (leggauss with 2M+1 points); order 2M+2 refuted."
NOTE["C86"] = "Contract on the rule: exact to degree 2M + opacity order."
NOTE["C51"] = "Sphere: order at most 12, higher orders fail."
NOTE["C53"] = "Contract on the slab rule: exact to degree 2M with nodes inside the cell; also the square pulse of the code, at every point right of the first edge."
NOTE["C54"] = "Both readings of the array addition (with and without shape check); witness of a wrong exit flux."
NOTE["C55"] = "The theorem states the defect; thermal_couple may be any python value."
NOTE["C90"] = "The failing branches are stated as theorems."
NOTE["C63"] = "Also what happens for other values of the study kind."
NOTE["C64"] = "By evaluation of the loader on the shipped files, transcribed mechanically by tools/yaml2coq.py."
NOTE["C65"] = "The solver is any function of call number, configuration and arguments; the claim holds for every such function."

NOTE["C56"] = "Contract on str of a number: no '/' and no '_' in it (tame; ex_tame exhibits one). Single precision is Flocq's rounding with unbounded exponent, so overflow is not modelled. Exactness refuted by a witness."
NOTE["C57"] = "Contract tame as for C56."
NOTE["C58"] = "Contract tame as for C56; the defect also as a witness."
NOTE["C59"] = "The theorems state the defect, with a witness built from the shipped configuration."
NOTE["C60"] = "Contract tame as for C56; equality of parameters follows for an injective str."
NOTE["C61"] = "All one-hot vectors and the vectors of the boundary, dipole and self-similar sources."
NOTE["C94"] = "Contract tame; the solver is any function with well-shaped results (one flux value per point)."
NOTE["C95"] = "As C94."
NOTE["C96"] = "Contract tame as for C56; the misfiled kind is a witness."
NOTE["C97"] = "Contract tame for the default front."
NOTE["C99"] = "Exact arithmetic."
NOTE["C100"] = "The pivot search divides by the scale of one row; it still finds a nonzero pivot whenever there is one."
NOTE["C101"] = "Equal numbers of knots and data; nothing is claimed for other lengths."
NOTE["C102"] = "The spec natural_spline quantifies over functions on the whole line with linear continuation; hat_natural exhibits one."
NOTE["C103"] = "Semi-discrete (exact time integration), constant opacity one, no uncollided treatment, slab update of rhs_class.py 244."
NOTE["C104"] = "As C103; the boundary data may be on."
NOTE["C105"] = "Thin initialisation, at least 12 cells, a multiple of four; 0 < pad < leader pad. Exact arithmetic."
NOTE["C106"] = "As C105."
NOTE["C107"] = "At least 16 cells, a multiple of four; the stop test must not fire on the initial mesh."
NOTE["C108"] = "IndexError stands for reading the element after the last one; compiled code does not check this and then continues with the last segment."
NOTE["C109"] = "The scaled time at 31.6228 is a witness."
NOTE["C110"] = "Stored positions increasing; the range is from the first to the last stored position. A nearest point inside the range that gets zero is a witness."
NOTE["C111"] = "As C110; the raising case is a witness."
NOTE["C112"] = "Length-one arrays broadcast and are outside the length statement."
NOTE["C113"] = "Slab transport with opacity one and no source, the initial value free."
NOTE["C114"] = "Row-major storage; memory outside the array is not modelled (Uninit). The checked read of a packed array is the witness."
NOTE["C115"] = "The driver statement assumes only that the solver returns when the wave part does."
NOTE["C116"] = "For the loop after make_sol, which is never reached; the splines are parameters."
NOTE["C117"] = "Exact solutions continuously differentiable in each cell (the piece of each cell extends to the plane), edges with continuous velocities, opacity one, exact integration of the source; semi-discrete."
NOTE["C118"] = "As C117."
NOTE["C119"] = "Taylor polynomial at the left end; the constant is not the best one."
NOTE["C120"] = "As C117; order M+1/2 in the norm, as usual for upwind fluxes on general meshes."
NOTE["C121"] = "As C117, positive weights; C121_front is a wave with a jump on a moving edge."
NOTE["C122"] = "As C103; edges with continuous velocities. The witness for two moments is C122_linear_functions_go_negative_refuted."
NOTE["C123"] = "As C103; boundary data given by a quadrature symmetric up to order."
NOTE["C124"] = "The manufactured-solution boundary data (source type 4) are excluded; emission and source are any courses."
NOTE["C125"] = "Boundary data other than the manufactured solution (source type 4)."
NOTE["C126"] = "As C103; the example shows that the factor 1/2 is sharp."
NOTE["C127"] = "As C103; the boundary data are off."
NOTE["C128"] = "Dimensionless equations of rhs_class.py 203-215 and 295-305; that the emission of the closure is the material energy is C50."
NOTE["C129"] = "An array of one entry fills its row, as numpy does; that the files open 'r+' is part of being openable."
NOTE["C130"] = "Real arithmetic; 0.16666666666666666 is read as 1/6. No code of this copy calls matrix_test."
NOTE["C131"] = "Exact solutions in time, as all theorems about trajectories; the time integrator of scipy is not modelled. The fields kept between flux calls may be anything at every call."
NOTE["C132"] = "Real arithmetic: the condition number is not bounded, and rounding in numpy.linalg.inv is not modelled."
NOTE["C133"] = "Inner cells; exact tables and inverse as in C25. The outermost cell sees the zero outside value."
NOTE["C134"] = "Exact tables and inverse, nothing entering; r_edges start at the centre."
NOTE["C135"] = "Exact tables and inverse, nothing entering; the refuted theorem uses three Gauss directions with their weights."
NOTE["C136"] = "Exact solutions in time; the outer boundary source must be off. The checks of the directions are those of C25: every direction a >= N/2 must have its mirror image within the tolerance."
NOTE["C137"] = "erf by its contract. The path opacity is that of sigma_func itself, without the factor sigma_a + sigma_s by which the solver multiplies it, so both agree only when that sum is one. The window of emission times keeps the code's tolerance of 1e-10. The benchmark cannot be reached by a run: boundary_source raises first."
NOTE["C138"] = "scipy's solve_ivp is assumed to take Runge-Kutta steps (the methods RK23, RK45, DOP853 and Radau do; BDF and LSODA do not), with exact real arithmetic and exactly solved stage equations. No order of convergence is claimed here (C184 has rate one); values at requested times inside a step come from interpolation in scipy, which is not modelled. In the sphere exact tables as in C25."
NOTE["C139"] = "Runge-Kutta steps with exactly solved stage equations and exact arithmetic; the numbers of the methods RK45 and Radau are transcribed from the literature, not from the repository."
NOTE["C140"] = "As C139. The loss on moving meshes is shown for explicit Euler, whose steps the stated methods contain as building block only; for the others C138 says that it vanishes with the step length."

NOTE["C141"] = "As C139. Radau's iteration for the stage equations is not modelled: what is shown is that they have exactly one solution."

NOTE["C142"] = "erf through its contract (C79). The curves are never drawn by an unchanged run because the code raises before it reaches them (C93)."
NOTE["C143"] = "scipy's integrate.quad is taken to return the integral. No caller of the function remains in the repository except its own plot method."
NOTE["C144"] = "That the values for the uniform slab must add up to one follows from linearity, mirror symmetry and the constant solution; that argument is not formalised."
NOTE["C145"] = "The script itself imports a module that is not in the repository; only its formulas are modelled."
NOTE["C146"] = "As C138: exact arithmetic, exactly solved stages, steps of the stated methods. The mesh is at rest and the source constant, so the equations do not depend on time; C138 (convergence) and C184 (rate one) cover moving meshes."
NOTE["C147"] = "C120 and C138/C146 put together; their assumptions apply (exact arithmetic, exactly solved stages, steps of the stated methods). That the coefficients of the source change continuously in time is a hypothesis."
NOTE["C148"] = "Configurations as loaded by the model of load_parameters.py; one point at a time."
NOTE["C149"] = "rhs_class_1.py defines the method but its call never uses it, so main_functions.py 190-193 hands back the initial lists [0], [0]; rhs_class.py calls it for every cell. Zero steps between stored points (a division by zero) are excluded in C149_what_is_recorded by no_repeat; C149_run holds without this."
NOTE["C150"] = "That the Newton iterations stop is not proved (C150_lobatto_nodes_accurate is about returned results), nor that two brackets cannot lead to the same node; C150_no_node_missed excludes this by the distance of the results. Exact arithmetic: rounding in the last step is not counted."
NOTE["C151"] = "Random draws are arbitrary numbers in the stated ranges; scipy's fixed_quad, quadpy and numpy rules by their definitions (gauss_points; satisfiable by C150_gauss_rule_exists). Not modelled: test_expi, test_ortho_Tn, test_quadrature_gss_lobatto. Tolerances are irrelevant in exact arithmetic except for test_finite_diff, which misses by more than 0.6."
NOTE["C152"] = "psi is differentiable at the end points in both directions (it extends smoothly past -1 and 1)."
NOTE["C153"] = "No live code calls the two saving methods (solver.py 322-326 is commented out). File paths are compared as text from one working directory. Python's str of a float is a parameter with its values at the six times as contract (satisfied in C153_example)."
NOTE["C154"] = "Exact arithmetic; scipy's linregress by its defining formulas. Positive abscissae for the triangle. Drawing itself is not modelled."
NOTE["C155"] = "Slab, linear Su-Olson closure (emission equal to the material energy). Exact data on inflow faces is a hypothesis (inflow_exact), for the material too: where an outer edge moves outward the code applies the boundary rules also to the material energy. Smoothness of the exact solution inside the moving cells is a hypothesis, satisfied in C155_example."
NOTE["C156"] = "C155 and C138/C146 put together; their assumptions apply (exact arithmetic, exactly solved stages, steps of the stated methods)."
NOTE["C157"] = "The second half of test_spline (from line 148: drawing, and a spline of a discontinuous function that is only drawn) is not modelled. mcclarren_spline_2 is not called by any file."
NOTE["C158"] = "Derivatives are assumed on all of R; only the values between the end knots enter the bounds. Exact arithmetic."
NOTE["C159"] = "Sphere, no material coupling, runs of the spherical branch as in C134-C136 (exact tables and inverses, time continuous). Smoothness inside the moving cells and exact data on an inflow face are hypotheses, satisfied in C160_example."
NOTE["C160"] = "Assumptions of C159. For Gauss directions gam times the cell width must exceed 8 (M+1)^2 times the distance of a direction below the middle of its angular cell, so the bound is useful when that distance is at most of the order of the cell width. The constant 3 (M+1)^3 is not sharp."
NOTE["C161"] = "C160 for equal angular cells with mid directions and weights 1/K, where gam = 0 and kappa = 1; the code uses Gauss nodes, for which C160 applies. Not proved: a bound without the condition K h^(M+1) -> 0."
NOTE["C162"] = "Assumptions of C160/C161, M <= 10 (the range in which the mass matrices of the sphere are proved invertible through the tables of the code), exact arithmetic, steps of a Runge-Kutta method given by its tableau (no step size control). The step length depends on the mesh and the solution, as the theorem says."
NOTE["C163"] = "scipy's quad is a parameter that returns the integral (quad_contract_holds). C163_printed_is_rms_refuted records that the printed number is not a root mean square."
NOTE["C164"] = "The function is called by no run (its call in test_s2_sol is commented out)."
NOTE["C165"] = "erf enters through its contract (as in C79). The function is imported by uncollided_solutions.py and not called."
NOTE["C166"] = "Improper integrals by shrinking the interval at both ends; the contract of the quadrature is met by limit_quad."
NOTE["C167"] = "numba rejects or fails on the unassigned name; modelled as UnboundLocal."
NOTE["C168"] = "The scalar flux at the stored steps is a parameter. The call in main_functions.py is commented out."
NOTE["C169"] = "Not called by the present code."
NOTE["C170"] = "Its call in mesh.py line 117 is commented out."
NOTE["C171"] = "The rule in time is any list of nodes and weights meeting the contract of leggauss; C150 gives one for every number of points."
NOTE["C172"] = "The data with the treatment off are IC_function, square_source and gaussian_source of the model. The boundary-driven shock (all entries zero) is the subject of the properties about the Sedov profile."
NOTE["C173"] = "Slab geometry with the treatment off. The spherical branch of make_source does nothing there; with the treatment on see C171 and C172."
NOTE["C174"] = "Square and plane pulses are the subject of C53 and the properties about make_IC; this property covers the pulses whose coefficients have no closed form."
NOTE["C175"] = "Nothing imports rhs_class.py any more; rhs_class_1.py took its place. The repairs are the two fields of the record repair: make_P gets the rows of the directions only, and make_LU gets a sixth argument, whose value the slab does not read."
NOTE["C176"] = "Reported means: make_IC followed by the output of the angular flux with the same mesh. The half point at the first edge is left out, as in C53."
NOTE["C177"] = "Nothing imports mesh_old.py any more. An attribute that was never assigned (Dedges_const) is Uninit when read; under numba it is an empty array and the addition fails instead."
NOTE["C178"] = "NameError is reported as UnboundLocal, its subclass. thick_square_moving_func of mesh_functions.py (27-86) is the subject of C181; the test functions of the builder (152-264) are not modelled."
NOTE["C179"] = "As C122 and C138: slab without material, constant opacity. Euler's methods are named by no configuration; RK45 is, and appears in the refutation. No positive bound for RK45 is proved."
NOTE["C180"] = "The material energy is direction N_ang of the state vector. The emission is linear in the energy (H = e), as in slab_rhs_thermal of the model; emission by a fourth power is not covered. The trajectory theorem is the limit of the theorem on Euler steps by C138, so it needs the continuity assumed there."
NOTE["C181"] = "Nothing calls either method (the calls in mesh.py 249 and 527 are comments). Reads outside of an array are errors in the model; numba does not check them. The attribute tactual selects between follow_whole and follow_steps."
NOTE["C182"] = "As C180, and for a mesh at rest: on a moving mesh Euler steps do not even keep a constant field. The trajectory theorem is the limit of the theorem on Euler steps by C138."
NOTE["C183"] = "The parameter method says whether the class has a method set_func; as the file stands it has not (C183_no_method, C183_four_cells). Odd numbers of cells with an even half are not covered by the theorems with the method."
NOTE["C184"] = "As C138: exact arithmetic, exactly solved stages, steps of the stated methods. The rate is one whatever the order of the method: where an edge velocity passes the velocity of a direction the right-hand side is only Lipschitz in time; C146 covers higher orders on meshes at rest. The sphere is without an entering flux at its outer edge and with tables and checks as in C136."
NOTE["C185"] = "C120, C155 and C184 put together; their assumptions apply (exact arithmetic, exactly solved stages, steps of the stated methods, slab). C147 and C156 have the bound in the cell width without the factor two but no rate on moving meshes."
NOTE["C186"] = "The plots are left out, and psi1, psi2 which nothing reads. interp1d is modelled as the straight line between neighbours for increasing positions. A boundary_source run raises before it gets here (C93); the claim is about the method itself."
NOTE["C187"] = "The time in the geometry is t + 1e-12 as in the code; the attenuation uses t. At radius 0 numpy divides by zero, the theorems integrate over r > 0. The stored runs and the benchmark of the other package are parameters of the study."
NOTE["C188"] = "The collided part (uncollided off in the report); with the uncollided part the same function is added to both sides. The exact solution is smooth inside the cells as in C120 and C185; the weights sum to 1 as the ones the code builds."
NOTE["C189"] = "As C162 and C184: ideal tables as the code builds them, order at most 10, the start at the projections of the exact solution. The collided part of the report."
NOTE["C190"] = "The collided part of the report, on the slab; the benchmark is the exact scalar flux at the points. The left end of a cell belongs to the cell before it, as in make_phi, except at the first edge."
NOTE["C191"] = "The collided part on the slab, uncollided off; the smallest cell h0 is at the final time."
NOTE["C192"] = "The uncollided solution is a parameter that succeeds at the points of the list. C192_run uses the right-hand side of rhs_class.py 259, whose source is c times the moments of the uncollided scalar flux S0; S0 is continuous in x."
NOTE["C193"] = "quad is a parameter that integrates continuous functions exactly; tables of positions with fewer than two columns are an error in the model."
NOTE["C194"] = "solve is a parameter and may give other results on every call, or raise."
NOTE["C195"] = "The coefficient files are reduced to the two sizes taken from them; the module is taken to be importable."
