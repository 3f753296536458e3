{"id": "C01", "title": "No event is reported twice for one time value", "statement": "For one output/regrid/restart schedule object, once a call (initial, per-step or final query) has answered 'yes' for time t, no later call made for the same time t answers 'yes' before a 'yes' for another time; in particular over any history with non-decreasing query times every time value gets at most one 'yes'.", "quantifier": "every schedule configuration (step/time type, any interval, first/last flags) and every finite sequence of initial/per-step/final queries with arbitrary steps and times", "why_tests_cant": "the set of call histories is unbounded and the object carries two hidden time registers", "anchors": ["source/EventInterval.cc: EventInterval::includeInitial, includeFinal, hasIntervalPassed, eventOccurredAtTime, recordEvent"]}
{"id": "C02", "title": "Time-based schedules fire exactly when a multiple of the interval is crossed", "statement": "For a time-based schedule with interval I>0 that has been queried before at time t0>=0, a per-step query at t1>=t0 (t1 not already reported) answers 'yes' if and only if some integer multiple m*I satisfies t0 < m*I <= t1; hence over any non-decreasing run no crossed multiple is skipped and no event is invented.", "quantifier": "all positive intervals, all times t0<=t1, and by induction every non-decreasing sequence of step times", "why_tests_cant": "step times are produced by an adaptive ODE integrator, so any real sequence can occur", "anchors": ["source/EventInterval.cc: EventInterval::hasIntervalPassed"]}
{"id": "C03", "title": "Step-based schedules fire exactly at multiples; inactive schedules never fire", "statement": "A step-based schedule with interval n>0, without the first-step flag, answers 'yes' to the query for (step,t) iff n divides step and t has not been reported already; a schedule whose interval is <=0 never answers 'yes' to any query whatever the flags.", "quantifier": "all intervals, flags, steps, times and query histories", "why_tests_cant": "unbounded histories", "anchors": ["source/EventInterval.cc: EventInterval::EventInterval, isActive, hasIntervalPassed"]}
{"id": "C04", "title": "The time loop stops, respects max_cycles and end_time and always dumps the final state", "statement": "For every sequence of step sizes returned by the integrator the main run loop stops after at most max_cycles-cycle steps, with cycle>=max_cycles or time>=end_time, each step having been started at time<end_time; when the restart schedule is active with include_last_step, a restart file for the final cycle has been written when the run returns, and no plot file is written twice for the same state.", "quantifier": "all start states, limits, schedules and all (infinite) sequences of positive step sizes", "why_tests_cant": "the integrator step sizes are unconstrained; termination is a statement about all of them", "anchors": ["source/PFModel.cc: PFModel::Run, writeRestartFile", "source/EventInterval.cc"]}
{"id": "C05", "title": "A requested initial restart file is written", "statement": "If the user asks for include_first_step on the Restart schedule, the run writes a restart file of the initial state before the first step; if they do not ask for it, none is written.", "quantifier": "all inputs (schedule configurations)", "why_tests_cant": "needs all combinations of the independent Restart and Regrid schedule settings", "anchors": ["source/PFModel.cc: PFModel::Run (lines guarding the initial writeRestartFile)", "source/PFModel.cc: PFModel::Initialize"]}
{"id": "C06", "title": "Restarting a run does not change its output schedule", "statement": "If a run is interrupted after any step and restarted from the file written there, every schedule that is primed by an initial query answers all per-step queries exactly as it would have in the uninterrupted run; and time, cycle, limits and previous step size are restored exactly.", "quantifier": "every crash point (step at which the restart file was taken), every later strictly increasing sequence of step times, every schedule configuration without include_first_step", "why_tests_cant": "quantifies over crash points and continuations; schedule objects are not saved in the restart file", "anchors": ["source/PFModel.cc: PFModel::putToRestart, getFromRestart, Run", "source/EventInterval.cc"]}
{"id": "C07", "title": "Interpolation polynomials map every phase value into [0,1], fix the end points and are monotone", "statement": "For each interpolation type documented for phase/energy interpolation, h(phi)=0 for phi<=0, h(phi)=1 for phi>=1 (for the types that clamp on both sides), 0<=h<=1, h is non-decreasing, and 'p','h','m' are symmetric: h(phi)+h(1-phi)=1 where that is part of the definition.", "quantifier": "all real phi (including over- and undershoots outside [0,1]) and all type characters", "why_tests_cant": "continuum of inputs, overshoots produced by the time integrator", "anchors": ["source/fortran/functions.f: interp_func"]}
{"id": "C08", "title": "Derivative routines are the derivatives of the functions they accompany", "statement": "For every interpolation type and every well type, the routine documented as first (second) derivative returns the derivative of the corresponding value (first derivative) routine at every real argument where the latter is differentiable.", "quantifier": "all real phi and all type characters", "why_tests_cant": "pointwise identity on a continuum; finite differences only sample it", "anchors": ["source/fortran/functions.f: deriv_interp_func, second_deriv_interp_func, well_func, deriv_well_func, second_deriv_well_func"]}
{"id": "C09", "title": "Double well energy is non-negative and vanishes exactly in the pure phases", "statement": "The double-well potential is >=0 for every phi and equals 0 exactly at phi=0 and phi=1 (single well: exactly at its minimum), with zero slope and positive curvature there.", "quantifier": "all real phi", "why_tests_cant": "continuum of inputs", "anchors": ["source/fortran/functions.f: well_func, deriv_well_func, second_deriv_well_func"]}
{"id": "C10", "title": "Cell-to-face averaging stays between the two cell values", "statement": "The face average of two non-negative cell values lies between their minimum and maximum, is symmetric in the two cells and reproduces a common value; the harmonic variant vanishes whenever one of them is below its cut-off.", "quantifier": "all non-negative pairs, both averaging types", "why_tests_cant": "continuum of inputs", "anchors": ["source/fortran/functions.f: average_func"]}
{"id": "C11", "title": "Elastic stiffness storage index is a symmetric bijection", "statement": "The packed storage index of a Voigt stiffness entry is symmetric in its two indices, lies in 1..6 (2D) or 1..21 (3D), and distinct unordered pairs get distinct slots; the Voigt map of tensor index pairs is symmetric and onto.", "quantifier": "all valid index pairs", "why_tests_cant": "small but complete: every pair of pairs must be compared; an off-by-one silently aliases moduli", "anchors": ["source/fortran/functions.f: storage_index_stiffness2d, storage_index_stiffness3d, single_index_stiffness2d, single_index_stiffness3d"]}
{"id": "C12", "title": "The crystal symmetry table is a group", "statement": "The 48 quaternions used as cubic symmetry rotations are unit, pairwise distinct, closed under quaternion multiplication, and the conjugate-index table maps each to its inverse (an involution).", "quantifier": "all pairs of the 48 table entries with exact values (sqrt 2 entries are exact reals)", "why_tests_cant": "exact equality of irrational entries cannot be tested in floating point", "anchors": ["source/fortran/quat.f: setqr, iq_qr_conj, quatmult4"]}
{"id": "C13", "title": "Symmetry search returns the closest equivalent orientation", "statement": "For unit orientations q1,q2 the symmetry search returns an index whose rotated q2 is at minimal distance from q1 among all symmetry equivalents, although the search stops early at the first candidate below a threshold.", "quantifier": "all pairs of unit quaternions (4-component), unit complex numbers (2-component) and angle pairs (1-component)", "why_tests_cant": "a continuum of orientation pairs; failures sit in thin sets near the early-exit threshold", "anchors": ["source/fortran/quat.f: quatfindsymm4, quatfindsymm2, quatfindsymm1"]}
{"id": "C14", "title": "Applying a symmetry rotation and its conjugate restores the orientation; norm and distances are preserved", "statement": "Rotating by index i and then by -i returns the original orientation; every symmetry rotation preserves the norm and the distance between orientations; index 0 or an index beyond the table is rejected.", "quantifier": "all quaternions and all indices -48..48 (and all other integers)", "why_tests_cant": "continuum of orientations", "anchors": ["source/fortran/quat.f: quatsymmrotate, quatsymmrotate4, quatsymmrotate2, quatsymmrotate1"]}
{"id": "C15", "title": "Rotation matrices of unit orientations are proper rotations and homomorphic", "statement": "For a unit quaternion the rotation matrix routine returns R with R R^T = I and det R = 1, R(q)=R(-q), and R(q1 q2)=R(q1) R(q2).", "quantifier": "all unit quaternions", "why_tests_cant": "continuum", "anchors": ["source/fortran/quat.f: quatrotationmatrix, quatmult4"]}
{"id": "C16", "title": "The derivative of the rotation matrix matches the rotation matrix", "statement": "Each entry returned by the rotation-matrix-derivative routine is the partial derivative of the corresponding entry of the rotation matrix with respect to the corresponding quaternion component.", "quantifier": "all quaternions, all 36 entries", "why_tests_cant": "pointwise identity on a continuum", "anchors": ["source/fortran/quat.f: derivquatrotationmatrixdq"]}
{"id": "C17", "title": "Normalisation yields unit orientations and canonical angles", "statement": "Normalising a quaternion (or complex orientation) of non-negligible length yields a unit vector in the same direction; normalising an angle yields the equivalent angle in [-pi,pi].", "quantifier": "all quaternions / complex numbers / reals", "why_tests_cant": "continuum; periodic wrap-around of arbitrarily large angles", "anchors": ["source/fortran/quat.f: quatnorm4, quatnorm2, quatnorm1", "source/QuatModel.cc: QuatModel::normalizeQuat"]}
{"id": "C18", "title": "Symmetry-aware orientation transfer between AMR levels completes", "statement": "With symmetry awareness switched on, coarsening or refining an orientation field between AMR levels completes and produces, in each coarse cell, the normalised average of symmetry-equivalent fine orientations.", "quantifier": "all patches, ratios >= 2 and orientation fields", "why_tests_cant": "the failing path is taken for every input, but only in the symmetry-aware AMR configuration", "anchors": ["source/fortran/2d/quatcoarsen.m4", "source/fortran/2d/quatlinrefine.m4", "source/fortran/quat.f: quatsymmrotate", "source/QuatModel.cc: initializeRefineCoarsenAlgorithms"]}
{"id": "C19", "title": "Plain orientation coarsening is the normalised average", "statement": "Without symmetry awareness each coarse orientation is the unit vector in the direction of the average of the ratio^dim fine orientations it covers, reads exactly these fine cells, and a constant unit field is reproduced.", "quantifier": "all coarse boxes (including negative indices), ratios and fields", "why_tests_cant": "continuum of fields and unbounded index ranges", "anchors": ["source/fortran/2d/quatcoarsen.m4", "source/QuatWeightedAverage.cc"]}
{"id": "C20", "title": "Composition transport conserves mass", "statement": "The discrete composition right-hand side integrated over a box equals the net flux through the outer faces of the box; over a periodic or closed box the total composition does not change.", "quantifier": "all flux fields, all box sizes, all mesh spacings, 2D and 3D", "why_tests_cant": "unbounded box sizes and arbitrary fields", "anchors": ["source/fortran/2d/concentrationrhs.m4: computerhsconcentration"]}
{"id": "C21", "title": "Three-phase evolution keeps the phase fractions summing to one", "statement": "The three-phase right-hand sides add up to zero in every cell, and the projection maps any three phase values to values that sum to one, leaving admissible values unchanged.", "quantifier": "all field values, fluxes and driving forces", "why_tests_cant": "continuum", "anchors": ["source/fortran/2d/phase.m4: projectphi2d", "source/fortran/2d/quatrhs.m4: computerhsthreephases", "source/ThreePhasesRHSStrategy.cc", "source/QuatIntegrator.cc: applyProjection"]}
{"id": "C22", "title": "Rigid-body pair forces obey Newton's third law", "statement": "The pair forces computed between grains satisfy F(i,j) = -F(j,i) and vanish for i=j, so the total internal force is zero.", "quantifier": "all phase fields, all box sizes and any number of grains", "why_tests_cant": "unbounded grain numbers and continuum fields", "anchors": ["source/fortran/2d/forces.m4: wang_forces, phiphi_forces", "source/WangRigidBodyForces.cc", "source/RigidBodyForces.cc"]}
{"id": "C23", "title": "Partitioned phase compositions reproduce the composition", "statement": "With partition coefficient k in (0,1] and weight h in [0,1], the computed phase compositions satisfy (1-h)*c_l + h*c_a = c and c_a = k*c_l, with c_l>=c>=c_a for c>=0.", "quantifier": "all c, h, k in range and all cells", "why_tests_cant": "continuum", "anchors": ["source/PartitionPhaseConcentrationsStrategy.cc: computePhaseConcentrationsOnPatch"]}
{"id": "C24", "title": "Velocity dependent partition coefficient stays between equilibrium and one", "statement": "The Aziz partition coefficient lies between the equilibrium coefficient and 1, equals the equilibrium one at zero velocity, moves monotonically towards 1 with |velocity|; and it always satisfies the range that its consumer requires (0<=k<=1).", "quantifier": "all velocities, all positive equilibrium coefficients, all positive reference velocities", "why_tests_cant": "continuum", "anchors": ["source/AzizPartitionCoefficientStrategy.cc: evaluate", "source/PartitionPhaseConcentrationsStrategy.cc"]}
{"id": "C25", "title": "Three-pair weights form a partition of unity", "statement": "For any three phase fractions the weights of the three pairs of phases are in [0,1], add up to one, follow a renumbering of the phases, and reduce to (1,0,0) when one phase is absent; no assert fires. The three-phase mobility built on them lies between the two solid-liquid mobilities.", "quantifier": "all phase fractions (non-negative, adding up to one), all positive mobilities", "why_tests_cant": "continuum", "anchors": ["source/computeWeights3Pairs.cc", "source/KimMobilityStrategyInfMob3Phases.cc: evaluateMobility"]}
{"id": "C26", "title": "Multi-order-parameter right-hand side is the gradient flow of the energy", "statement": "The bulk part of the multi-order-parameter right-hand side in a cell is minus mobility times the partial derivative of the multi-well energy density with respect to that order parameter.", "quantifier": "all numbers of order parameters and all values", "why_tests_cant": "continuum and unbounded number of order parameters", "anchors": ["source/fortran/2d/multiorder.m4: computerhsmultiorder", "source/fortran/2d/quatenergy.m4: phiphi_interfacialenergy", "source/fortran/3d/multiorder.m4: computerhsmultiorder"]}
{"id": "C27", "title": "Discrete fluxes are consistent", "statement": "Every flux scheme of the composition equation adds coefficient*gradient (summed over the coupled species and over the phases) on each face of the patch: exactly for profiles up to quadratic, for the fourth-order scheme also for cell averages of quartics away from physical boundaries, where it falls back to the two adjacent cells; the isotropic scheme averages the exact fluxes of the neighbouring rows. Constant fields give no flux and no other face is touched.", "quantifier": "all meshes, boxes, faces and coefficient values", "why_tests_cant": "unbounded boxes and continuum of fields", "anchors": ["source/fortran/2d/flux.m4: add_flux, add_flux_iso, add_flux_4th", "source/fortran/3d/flux.m4: add_flux_iso", "source/fortran/2d/laplacian.m4", "source/EBSCompositionRHSStrategy.cc: computeFluxOnPatch"]}
{"id": "C28", "title": "Hierarchy weights integrate the domain exactly once", "statement": "For any properly nested AMR hierarchy the cell weights are the cell volume on cells not covered by a finer level and 0 elsewhere, so the weighted sum of 1 over all levels equals the volume of the domain.", "quantifier": "all hierarchies: any number of levels, boxes and refinement ratios", "why_tests_cant": "unbounded family of nested box hierarchies", "anchors": ["source/QuatModel.cc: computeVectorWeights, zeroOutLowerLevelWeights"]}
{"id": "C29", "title": "Diagnostics weights integrate the sub-domain exactly once", "statement": "The diagnostics weights are zero on every coarse cell covered by a finer level so that sub-domain averages count each point once.", "quantifier": "all AMR hierarchies with at least two levels", "why_tests_cant": "only visible on refined hierarchies with sub-domain diagnostics", "anchors": ["source/QuatModel.cc: computeVectorWeightsDiagnostics, zeroOutLowerLevelWeights"]}
{"id": "C30", "title": "Reported energy contributions do not depend on the patch decomposition", "statement": "Total, well, free and pair energies reported for a field equal the weighted sum of the local densities over all patches, independently of how the domain is cut into patches and of the order of patches.", "quantifier": "all decompositions of a level into patches and all fields", "why_tests_cant": "quantifies over decompositions", "anchors": ["source/EnergyEvaluationStrategy.cc", "source/fortran/2d/quatenergy.m4: quatenergy, bulkenergy", "source/MultiOrderPEnergyEvaluationStrategy.cc: evaluatePairEnergy", "source/fortran/2d/quatenergy.m4: phiphi_interfacialenergy"]}
{"id": "C31", "title": "Grain number coarsening keeps the smallest label", "statement": "Coarsening integer labels yields the smallest non-negative label among the covered fine cells, or -1 if there is none; the result depends only on the covered cells.", "quantifier": "all label fields, ratios and boxes", "why_tests_cant": "unbounded", "anchors": ["source/MinIntCoarsen.cc: MinIntCoarsen::coarsen"]}
{"id": "C32", "title": "Grain numbering identifies connected grains", "statement": "When the label propagation stops because nothing changed, two grain cells of a level carry the same number iff they are connected through face-neighbouring grain cells, non-grain cells carry no number, and the final numbers are exactly 0..N-1 with N the number of connected grains.", "quantifier": "all grain masks on all boxes, all sweep orders as implemented", "why_tests_cant": "exponentially many masks; the property is about connectivity", "anchors": ["source/Grains.cc: findAndNumberGrains"]}
{"id": "C33", "title": "Grain numbering converges before it is cut off", "statement": "The label propagation always reaches its fixed point before the built-in iteration limit, so that no connected grain is split.", "quantifier": "all grain masks and box sizes", "why_tests_cant": "fails only for elongated/serpentine grains whose length exceeds the limit; size-dependent", "anchors": ["source/Grains.cc: findAndNumberGrains (max_iteration_count)"]}
{"id": "C34", "title": "Initial grain labels are unique over the hierarchy", "statement": "The initial labels given to candidate cells before propagation are pairwise different over all cells of all levels.", "quantifier": "all hierarchies", "why_tests_cant": "needs multi-level hierarchies of all shapes", "anchors": ["source/Grains.cc: findAndNumberGrains (level_offset, level_stride)"]}
{"id": "C35", "title": "Refinement tagging never misses a steep cell", "statement": "A cell is tagged for refinement iff the gradient of one of the monitored fields, measured across the cell, exceeds the threshold of that field; monitoring an additional field never removes a tag.", "quantifier": "all fields, thresholds, meshes and monitor combinations", "why_tests_cant": "continuum of fields and thresholds", "anchors": ["source/fortran/2d/quattag.m4: tagfromgrads, tagfromquatgrads", "source/QuatModel.cc: tagGradientDetectorCells"]}
{"id": "C36", "title": "Field access with ghost layers touches each interior cell exactly once", "statement": "Pointer-arithmetic loops over a patch interior (noise generation) visit, in order, exactly the storage positions of the cells of the written array (ghosts included) in each array, for any ghost widths with those of the order parameter at least those of the written field, and stay inside the arrays; pure phases get no noise.", "quantifier": "all patch sizes, all ghost widths, 2D and 3D", "why_tests_cant": "unbounded sizes; an error reads or writes out of bounds (undefined behaviour)", "anchors": ["source/Noise.cc: Noise::setField"]}
{"id": "C37", "title": "Time-dependent boundary values are interpolated linearly and independently of call history", "statement": "For tabulated strictly increasing times and a fill time inside the table, the boundary value set is the linear interpolation between the two bracketing entries, whatever sequence of earlier fill times the same face was queried with, or the run stops with an error message.", "quantifier": "all tables, all fill times in range, all call histories", "why_tests_cant": "the routine keeps static search state across calls", "anchors": ["source/TimeLocationIndexRobinBcCoefs.cc: setBcCoefs"]}
{"id": "C38", "title": "Time-dependent boundary lookup never leaves the table", "statement": "For every fill time the table lookup stays inside the table (an out-of-range time is reported as an error).", "quantifier": "all tables and all fill times", "why_tests_cant": "the failing access is undefined behaviour that may go unnoticed in a test", "anchors": ["source/TimeLocationIndexRobinBcCoefs.cc: setBcCoefs"]}
{"id": "C39", "title": "Copying a time-dependent boundary description copies all of it", "statement": "After assignment the target object sets the same boundary values as the source for every face and time.", "quantifier": "all objects, faces and times", "why_tests_cant": "quantifies over object states", "anchors": ["source/TimeLocationIndexRobinBcCoefs.cc: operator="]}
{"id": "C40", "title": "Temperature history lookup interpolates inside the table and rejects the rest", "statement": "For increasing tables the lookup returns, for times and positions inside the tabulated range, the bilinear interpolation (between the min and max of the four surrounding entries, exact at table points), and an error code outside; it never reads outside the table.", "quantifier": "all tables, times and positions (including the end points of the range)", "why_tests_cant": "continuum, and the failing access is undefined behaviour", "anchors": ["source/TemperatureHistory.cc: getTandGradT"]}
{"id": "C41", "title": "Moving frame velocity changes are bounded", "statement": "One adaptation changes the frame velocity by at most the magnitude of the initial frame velocity, in the direction in which the solid fraction changed, and by nothing on the first call; after n adaptations the velocity is within n times that bound of its initial value.", "quantifier": "all histories of solid fractions and (increasing) times", "why_tests_cant": "unbounded histories", "anchors": ["source/AdaptMovingFrame.cc: adaptVelocity"]}
{"id": "C42", "title": "Three-phase tilting functions are a partition of unity with consistent derivatives", "statement": "On the simplex p0+p1+p2=1, p_i>=0 the three tilting functions sum to one, equal 1/0 in pure phases, and the derivative routines return the constrained (projected) partial derivatives, which sum to zero.", "quantifier": "all points of the simplex, both tilting families", "why_tests_cant": "continuum", "anchors": ["source/TiltingFolchPlapp2005.cc", "source/TiltingMoelans2011.cc"]}
{"id": "C43", "title": "Parallel list gathering sums per-key contributions of all ranks", "statement": "After the global reduction every rank holds the same key/value list, containing exactly the keys of all ranks, each with the sum of the contributions of all ranks.", "quantifier": "any number of ranks and any local lists", "why_tests_cant": "unbounded number of ranks and keys", "anchors": ["source/tools.cc: listLocalToGlobal, allGatherSetup"]}
{"id": "C44", "title": "Moving-frame advection stencils are exact on low-degree polynomials", "statement": "The frame-advection term adds velocity*slope, exactly for profiles up to quadratic with the centred stencil and up to cubic with the upwind stencil (up to quadratic in the last column at a right physical boundary), for every component of the field and no other cell; constant fields and a frame at rest change nothing.", "quantifier": "all fields of that degree, meshes, boxes and velocities", "why_tests_cant": "continuum", "anchors": ["source/fortran/2d/quatrhs.m4: addvdphidx, addvdphidx_upwind3", "source/MovingFrameRHS.cc"]}
{"id": "C45", "title": "Default run name derives from the input file's base name", "statement": "Without an explicit run_name the run name is the part of the input path after the last '/' and before the last '.', so it contains no '/'. An explicit run_name is used as it is.", "quantifier": "all input paths", "why_tests_cant": "unbounded strings", "anchors": ["source/AMPE.cc: AMPE::initialize"]}
{"id": "C46", "title": "max_delta_cycles bounds the steps of each run", "statement": "When max_delta_cycles=m is in the input, a run (new or restarted) takes at most max(0,m) steps.", "quantifier": "all input decks, restart files, schedules and step-size sequences", "why_tests_cant": "combinations of optional limits, and all step sequences", "anchors": ["source/PFModel.cc: getFromInput, getFromRestart, Run"]}
{"id": "C47", "title": "Derivative of the cell-to-face average", "statement": "The routine used for the Jacobian of face-averaged diffusion returns, for the value of one of the two cells, the derivative of the face average with respect to that cell value.", "quantifier": "all pairs of cell values above the cut-off, both averaging types", "why_tests_cant": "continuum of pairs; a test with equal cell values passes", "anchors": ["source/fortran/functions.f: deriv_average_func, average_func", "source/fortran/2d/quatdiffusion.m4: quatdiffusionderiv"]}
{"id": "C48", "title": "Interpolation ratio functions factor the interpolation polynomials", "statement": "ratio(phi; p, l)*l(phi) = p(phi), complementary ratio(phi; p, l)*(1-l(phi)) = 1-p(phi), and both are one for equal types, for every real phi.", "quantifier": "all real phase values", "why_tests_cant": "continuum, including the singular end points the functions exist for", "anchors": ["source/fortran/functions.f: interp_ratio_func, compl_interp_ratio_func"]}
{"id": "C49", "title": "Limited inverse is bounded, exact away from zero, and keeps the sign", "statement": "The limited inverse never exceeds 1e4 in magnitude, is the exact inverse for magnitudes above 1e-4, and has the sign of its argument.", "quantifier": "all real arguments", "why_tests_cant": "continuum; sign error only in a tiny interval", "anchors": ["source/fortran/functions.f: limitedinverse"]}
{"id": "C50", "title": "Three-phase well force is the projected gradient", "statement": "The derivative routine of the three-phase well returns the component of the gradient of sum_i 16 p_i^2(1-p_i)^2 projected on the plane of constant p0+p1+p2; the three components sum to zero.", "quantifier": "all triples of reals", "why_tests_cant": "continuum", "anchors": ["source/fortran/functions.f: deriv_triple_well_func", "source/fortran/2d/quatrhs.m4: computerhsthreephases"]}
{"id": "C51", "title": "Inverse gradient norm respects the floor", "statement": "For every floor type the regularised inverse gradient norm is positive, at most 1/floor, never makes the normalised gradient longer than one, and with the max floor it is the exact inverse norm above the floor.", "quantifier": "all squared norms >= 0 and all positive floors", "why_tests_cant": "continuum; the floor only matters near zero gradients", "anchors": ["source/fortran/quat.f: eval_grad_normi"]}
{"id": "C52", "title": "Cubic anisotropy tensor has the crystal symmetry", "statement": "The rotated fourth-order cubic tensor is unchanged if the orientation is replaced by any of the 48 crystal-equivalent ones, and is symmetric under every exchange of indices.", "quantifier": "all orientations, all 48 equivalents, all index quadruples", "why_tests_cant": "continuum of orientations times 48 equivalents", "anchors": ["source/fortran/quat.f: rotationtensorijkl"]}
{"id": "C53", "title": "Linear refinement locates fine cells between coarse cells", "statement": "For every refinement ratio up to 16 and every fine index (negative too) the chosen coarse cell and weight in [0,1) put the fine centre exactly between the two coarse centres used, so affine fields are refined exactly.", "quantifier": "all ratios 1..16, all integers, all positive mesh sizes", "why_tests_cant": "unbounded indices; negative indices (ghost cells, boxes left of the origin) take another branch", "anchors": ["source/fortran/2d/quatlinrefine.m4"]}
{"id": "C54", "title": "Cahn-Hilliard flux is the gradient of the chemical potential", "statement": "The Cahn-Hilliard kernel adds to every face flux of the patch the mobility times the face difference of dF/dc - kappa*Laplacian(c), F being the double well between the two equilibrium compositions; a uniform composition gives no flux.", "quantifier": "all composition fields, meshes, box sizes and parameters", "why_tests_cant": "scatter loop over ghost cells: every face receives two contributions from two iterations; arbitrary fields and box sizes", "anchors": ["source/fortran/2d/concentrationrhs.m4: add_cahnhilliarddoublewell_flux"]}
{"id": "C55", "title": "Sintering composition and order-parameter equations share one energy", "statement": "The sintering composition flux is the face mobility times the face gradient of dF/dc - kappa*Laplacian(c), and the sintering order-parameter right-hand side is beta*div(flux) - dF/dphi_p, for one and the same energy density F(c, phi_1..phi_n).", "quantifier": "any number of particles, all fields, meshes and box sizes", "why_tests_cant": "two routines in different files, unbounded number of particles", "anchors": ["source/fortran/2d/concentrationrhs.m4: add_wang_sintering_flux", "source/fortran/2d/sintering.m4: computerhs_wang_sintering"]}
{"id": "C56", "title": "Anti-trapping fluxes oppose solute trapping, whatever the number of phases", "statement": "The anti-trapping correction is bounded by alpha*|cl-ca|*|rate|, vanishes for an interface at rest, points along the solid gradient when solid grows into richer liquid; the multi-grain and three-phase kernels give the two-phase correction when only two phases are present.", "quantifier": "all fields, meshes, box sizes, number of components and of grains", "why_tests_cant": "normalised gradients of arbitrary fields; agreement of three routines for any number of grains", "anchors": ["source/fortran/2d/concentrationrhs.m4: concentrationflux_antitrapping, ..._3phases, ..._multiorderp", "source/EBSCompositionRHSStrategy.cc: addFluxFromAntitrappingonPatch"]}
{"id": "C57", "title": "3D pair forces are stored where they are read and weighted by the cell volume", "statement": "In 3D the phi-phi force of a pair of grains, read back by the integrator, is the volume-weighted integral of the force density of that pair, component by component, counting every point of the domain once.", "quantifier": "all fields, patch and rank decompositions", "why_tests_cant": "index arithmetic shared between a Fortran kernel and a C++ consumer; unbounded numbers of grains and patches", "anchors": ["source/fortran/3d/forces.m4: phiphi_forces", "source/RigidBodyForces.cc: evaluatePairForces"]}
{"id": "C58", "title": "Rigid motion keeps grain volumes and total momentum", "statement": "The rigid-motion term changes a grain's order parameter by -v.grad(phi) and, on a periodic domain, keeps its volume for any velocity; the volume-weighted velocities of all grains add up to the mobility times the external forces only.", "quantifier": "all fields, box sizes, velocities, any number of grains, patches and ranks", "why_tests_cant": "sums over arbitrary domains and numbers of grains", "anchors": ["source/fortran/2d/rbmotion.m4: addrbmotion", "source/RigidBodyMotionRHS.cc", "source/QuatIntegrator.cc: 2495-2520"]}
{"id": "C59", "title": "Schedules and run limits follow the input deck", "statement": "A schedule built from an input deck has the requested type, interval and first/last flags (defaults where a key is absent) and fires accordingly; unknown type names are rejected. A new run starts at start_time (0 if absent) and stops only at end_time or at the cycle limit given by max_delta_cycles, else max_cycles, else max_timesteps; a restarted run carries on from the stored cycle and time with the limits of the deck overriding the stored ones.", "quantifier": "all input decks, all schedules, all step size sequences", "why_tests_cant": "all combinations of present and absent keys with all step sequences", "anchors": ["source/EventInterval.cc:17-79", "source/PFModel.cc: getFromInput, getFromRestart"]}
{"id": "C60", "title": "An absent phase is not created by the local terms", "statement": "In the three-phase model, where one of the phase fractions is zero the energy wells and the chemical driving force do not change it, so that only diffusion from neighbouring cells can bring the phase in.", "quantifier": "all phase fractions on the simplex, all free energies, compositions and chemical potentials, both tilting functions", "why_tests_cant": "algebraic cancellation between the tilting functions, the wells and the constraint, for all energies", "anchors": ["source/CALPHADFreeEnergyStrategyBinaryThreePhase.cc: addDrivingForceOnPatch", "source/TiltingFolchPlapp2005.cc", "source/TiltingMoelans2011.cc", "source/fortran/2d/quatrhs.m4: computerhsthreephases"]}
{"id": "C61", "title": "Symmetry-aware orientation differences are the smallest ones between equivalent orientations", "statement": "In a run that knows the crystal symmetry (Symmetry { enabled = TRUE }), for every field of unit orientations with 2 or 4 components (and for angles with 1 component) the search for rotations succeeds on every side of a patch; the orientation difference stored on that side is the difference with one of the symmetry images of the neighbouring orientation; no other image gives a shorter one; and the stored difference is zero exactly when the two neighbours are crystallographically equivalent.", "quantifier": "All patches, all unit orientation fields including ghost cells, whatever the rotation indices held before.", "why_tests_cant": "A test looks at a few orientations; the claim is about every orientation and each of the 4 or 48 images of the table, with ties.", "anchors": ["source/fortran/2d/quatrotation.m4", "source/fortran/2d/quatdiffs.m4", "source/computeQDiffs.cc"]}
{"id": "C62", "title": "The choice of representative orientation in a cell is not observable", "statement": "Two orientation fields that differ only by the symmetry image chosen in each cell have the same gradient moduli (from cells and from sides), and with use_diffs_to_compute_flux their right-hand sides are the same up to that image, so that they describe the same moving grains, as long as no cell has two equally close images of a neighbour.", "quantifier": "All fields of unit orientations without ties, all choices of images cell by cell, all coefficients and mobilities.", "why_tests_cant": "The number of choices is exponential in the number of cells; a test can only compare a few.", "anchors": ["source/fortran/2d/quatrotation.m4", "source/fortran/2d/quatdiffs.m4", "source/fortran/2d/quatgrad.m4", "source/fortran/2d/quatfacops.m4", "source/QuatFACOps.cc"]}
{"id": "C63", "title": "The orientation equation does not change the length of the orientation", "statement": "The right-hand side computed for the orientation of a cell, with or without symmetry, with either flux option, and including the correction for symmetry, is orthogonal to the orientation of that cell.", "quantifier": "All fields with 2 or 4 components that do not vanish, all face coefficients, mobilities and rotations.", "why_tests_cant": "The orthogonality is exact cancellation between a stencil and a projection, which a test can only sample with a tolerance.", "anchors": ["source/QuatFACOps.cc", "source/fortran/2d/quatfacops.m4", "source/fortran/2d/correctrhsquatforsymmetry.m4"]}
{"id": "C64", "title": "Crystallographically equivalent neighbours exert no force on each other", "statement": "In a symmetry-aware run a cell whose four neighbours are equivalent to it does not move; where no rotation is needed the right-hand side is that of a run without symmetry. (The first half is proved with use_diffs_to_compute_flux; with the default option it is false of the code: the correction for symmetry is added to a right-hand side that is already symmetric, so that such a cell moves with the opposite of the plain right-hand side; and a build with assertions stops.)", "quantifier": "All fields of unit orientations with 2 or 4 components, all coefficients and mobilities.", "why_tests_cant": "The default branch is only visible on fields with equivalent but different neighbours, and a test with the other option passes.", "anchors": ["source/QuatIntegrator.cc", "source/QuatFACOps.cc", "source/fortran/2d/correctrhsquatforsymmetry.m4", "source/fortran/2d/quatfacops.m4"]}
{"id": "C65", "title": "Projection brings orientations back to length one and errors into the tangent space", "statement": "Adding the computed correction to a non-vanishing orientation gives the orientation of length one in the same direction; a projected error is orthogonal to the orientation, differs from the given error by a multiple of the orientation, and an error that was orthogonal already is kept.", "quantifier": "All non-vanishing fields of any number of components, all errors.", "why_tests_cant": "Exact identities with square roots over all real inputs.", "anchors": ["source/fortran/2d/quatfacops.m4", "source/QuatFACOps.cc"]}
{"id": "C66", "title": "The orientation equation decreases the orientation energy", "statement": "With the face coefficients held fixed, the orientation energy of a patch, moved along the computed right-hand side, changes at the rate minus the sum over cells of |rhs|^2/mobility: it decreases unless nothing moves. The same holds with symmetry-aware fluxes for the energy of the symmetry-aware differences.", "quantifier": "All non-vanishing orientation fields, all face coefficients, positive mobilities, all patches.", "why_tests_cant": "A statement about a derivative of a sum over an arbitrary patch.", "anchors": ["source/QuatFACOps.cc", "source/fortran/2d/quatfacops.m4", "source/QuatIntegrator.cc"]}
{"id": "C67", "title": "Face coefficients of the orientation equation are diffusive and bounded by the gradient floor", "statement": "For phases in [0,1], non-negative temperatures and a positive gradient floor, the coefficient of every face exists for every documented floor type, interpolation and average, is of the sign of diffusion, is bounded by factor*T/floor plus epsilon_q^2 (T the average of the two temperatures, factor the prefactor of the singular term), and the singular part of the flux stays bounded whatever the gradient.", "quantifier": "All gradients from 0 to infinity, all documented options.", "why_tests_cant": "The coefficient is singular at vanishing gradient; a test cannot cover the limit.", "anchors": ["source/fortran/2d/quatfacops.m4", "source/fortran/functions.f", "source/QuatFACOps.cc"]}
{"id": "C68", "title": "The orientation gradient modulus is the norm of the gradient and sees every misoriented neighbour", "statement": "On an orientation field varying linearly in space both gradient moduli (quat_grad_modulus_type \"cells\" and \"sides\") are the exact norm of the gradient; the modulus is zero only in a cell whose neighbours have its orientation. (The second half is proved for \"sides\". For \"cells\", the default, it is false of the code: the modulus is zero whenever opposite neighbours agree with each other, so that grains one cell wide are not seen.)", "quantifier": "All patches, spacings, numbers of components and orientation fields including ghost cells.", "why_tests_cant": "A statement about all fields and the zero set of a sum of squares.", "anchors": ["source/fortran/2d/quatgrad.m4", "source/QuatGradModulusStrategy.cc", "source/fortran/2d/quatdiffs.m4"]}
{"id": "C69", "title": "The phase equation decreases the energy the code reports", "statement": "With the simple gradient flux, the double well and clamped (or, inside (0,1), linear) interpolation, the phase right-hand side divided by the mobility is minus the gradient of the total energy written by the run for the same phase field, so that along the computed motion the reported energy never increases. (False of the code for two settings: the right-hand side always uses the double well while the energy uses phi_well_func_type, and with the isotropic flux the energy keeps the five-point stencil; in both cases there are states from which the reported energy increases. The driving force of the undercooling strategy differs from the gradient of its energy by a quarter of the distance of the temperature from the mean of the neighbours.)", "quantifier": "All phase fields, all directions compatible with periodic or zero-flux boundaries, all mobilities, well heights, free energies, patch sizes and spacings.", "why_tests_cant": "The energy and the right-hand side are computed by different kernels; agreement is a statement about derivatives of a sum over all fields.", "anchors": ["source/PhaseRHSStrategyWithQ.cc", "source/fortran/2d/quatrhs.m4", "source/fortran/2d/quatenergy.m4", "source/DeltaTemperatureFreeEnergyStrategy.cc"]}
{"id": "C70", "title": "The phase fraction stays between 0 and 1", "statement": "Every exact-in-time solution of the phase equation that starts between 0 and 1 stays between 0 and 1, with boundaries that are periodic, reflecting or prescribe values in [0,1]: with the simple flux, and with the isotropic flux on cells whose sides differ by at most a factor sqrt 5; with driving forces through clamped interpolation functions or the bias of the double well; with orientation terms of every floor type that is flat below zero. (False of the code with the linear interpolation 'l', with the isotropic flux on longer cells, and with the anisotropic flux of strength above 1/15.)", "quantifier": "All initial fields, all times, time dependent temperatures, mobilities and free energies, all patch sizes.", "why_tests_cant": "A maximum principle for all trajectories; a run only shows one trajectory with a finite time step.", "anchors": ["source/PhaseRHSStrategyWithQ.cc", "source/fortran/2d/quatrhs.m4", "source/fortran/functions.f", "source/PhaseFluxStrategyFactory.h"]}
{"id": "C71", "title": "The anisotropic flux is the derivative of the interface energy of the turned crystal", "statement": "Where the slope in x exceeds the cut-off, the flux through a face is the derivative of eps^2(1+nu cos(k(theta-alpha)))^2 |grad phi|^2/2 with respect to the slope across the face, where alpha is the angle by which the crystal is turned; with nu=0 it is the simple flux. (Proved for orientations whose angle is in [0,2 pi] with four and in [0,pi] with two components. False of the code for negative angles, for the opposite sign of the same quaternion, and for orientations with one component, read as a cosine.)", "quantifier": "All phase fields, slopes beyond the cut-off, symmetries k, strengths nu and angles alpha.", "why_tests_cant": "A derivative identity over all slopes and orientations; the sign ambiguity only shows on particular representatives.", "anchors": ["source/fortran/2d/quatrhs.m4", "source/PhaseFluxStrategyAnisotropy.cc", "source/PhaseFluxStrategyFactory.h"]}
{"id": "C72", "title": "The isotropic flux has an isotropic leading error", "statement": "On square cells and phase fields that are polynomials of degree at most 5, the diffusion term of the phase equation with the isotropic flux is M eps^2 (Laplacian + h^2/12 Laplacian squared), which is the same in every direction; with the simple flux the h^2/12 term contains the fourth derivatives along the axes only.", "quantifier": "All polynomials of degree at most 5, all spacings and positions.", "why_tests_cant": "An identity for a family of polynomials and all spacings; runs only show an error estimate.", "anchors": ["source/fortran/2d/quatrhs.m4", "source/PhaseFluxStrategyIsotropic.cc"]}
{"id": "C73", "title": "The heat equation conserves heat and keeps the temperature within its bounds", "statement": "With closed or periodic boundaries and a uniform specific heat, solutions of the temperature and phase equations conserve cp*T - latent_heat*phi summed over the cells: solidification heats exactly by the latent heat. Without phase change the temperature stays between the extremes of the initial and boundary values. (With a specific heat that varies in space, conservation is false of the code: conduction uses one diffusivity and no heat capacity.)", "quantifier": "All trajectories, all patch sizes, spacings, diffusivities, initial fields.", "why_tests_cant": "A conservation law and a maximum principle over all trajectories.", "anchors": ["source/fortran/2d/quatrhs.m4", "source/SimpleTemperatureRHSStrategy.cc", "source/fortran/2d/laplacian.m4"]}
{"id": "C74", "title": "The biased double well keeps both phases stable up to a bias of 32 W and favours the right phase", "statement": "For a uniform phase fraction and the biased double wells (UTRC, Beckermann): below a bias of 32 W there is one threshold in (0,1) such that fractions below decrease and above increase, pure phases being at rest; from 32 W on one phase takes over from every fraction. The UTRC bias stays below 32 W for every undercooling if alpha <= 64 W. The bias favours the solid below the equilibrium temperature and the liquid above.", "quantifier": "All temperatures, equilibrium temperatures, alpha, gamma, well heights, mobilities and phase fractions.", "why_tests_cant": "A statement about all undercoolings and all fractions, with a transcendental bias.", "anchors": ["source/fortran/2d/quatrhs.m4", "source/BiasDoubleWellUTRCFreeEnergyStrategy.cc", "source/BiasDoubleWellBeckermannFreeEnergyStrategy.cc"]}
{"id": "C75", "title": "The driving force on several order parameters follows the shared bulk energy", "statement": "The force added to each order parameter is minus the derivative of the bulk energy density in which solid and liquid energies are weighted by the squares of the order parameters; the forces weighted by the order parameters add up to zero; no other cell or component is written.", "quantifier": "Any number of order parameters, all values that do not all vanish, all energies.", "why_tests_cant": "A derivative identity for an arbitrary number of order parameters.", "anchors": ["source/fortran/2d/quatrhs.m4"]}
{"id": "C76", "title": "The driving force of a binary or ternary alloy is minus the derivative of the energy of the phases in equilibrium", "statement": "If the phase compositions solve the equilibrium equations (equal chemical potentials, shares adding up to the given composition) with the same interpolation function as the energy and both phases have one molar volume, the force added to the phase equation by the CALPHAD, dilute and quadratic strategies is minus the derivative of the energy density at constant composition. (False of the code when conc_interp_func_type differs from energy_interp_func_type or when the molar volumes differ.)", "quantifier": "All free energy functions, temperatures, compositions, phase fractions, molar volumes.", "why_tests_cant": "A derivative identity over arbitrary energy functions and implicit phase compositions.", "anchors": ["source/CALPHADFreeEnergyStrategyBinary.cc", "source/KKSdiluteBinary.cc", "source/QuadraticFreeEnergyStrategy.cc", "source/CALPHADFreeEnergyStrategyTernary.cc", "source/PhaseRHSStrategyWithQ.cc"]}
{"id": "C77", "title": "The alloy driving force favours the phase of lower grand potential and vanishes at the common tangent", "statement": "With equal chemical potentials, between the pure phases the solid fraction is driven up exactly when the solid has the lower grand potential, down when the liquid has, and not at all exactly when one line is tangent to both energy curves. With interpolation 'p' or 'h' there is no force in the pure phases.", "quantifier": "All energy functions, temperatures, compositions, phase fractions strictly between 0 and 1.", "why_tests_cant": "An equivalence over all energy functions.", "anchors": ["source/CALPHADFreeEnergyStrategyBinary.cc", "source/KKSdiluteBinary.cc", "source/QuadraticFreeEnergyStrategy.cc"]}
{"id": "C78", "title": "The alloy driving force on several order parameters follows the energy of the phases weighted by the squares", "statement": "With two solid phases, any number of order parameters per phase and phase compositions in equilibrium, the force on every order parameter is minus the derivative of the energy density at constant composition; with one or two compositions. The forces weighted by the order parameters add up to zero and nothing else is written. (With one solid phase the compositions are solved with other weights; the statement then holds only for conc_interp_func_type 'm' along the fraction of a single grain and is false for 'p'.)", "quantifier": "Any number of order parameters not all zero, all energy functions, temperatures and compositions.", "why_tests_cant": "A derivative identity for an arbitrary number of order parameters and arbitrary energies.", "anchors": ["source/CALPHADFreeEnergyStrategyMultiOrder.cc", "source/QuadraticFreeEnergyStrategyMultiOrder.cc", "source/QuadraticFreeEnergyStrategyMultiOrderTernaryThreePhase.cc", "source/EquilibriumPhaseConcentrationsBinaryMultiOrder.cc", "source/EquilibriumPhaseConcentrationsBinaryMultiOrderThreePhases.cc"]}
{"id": "C79", "title": "The three-phase CALPHAD force follows the energy of the phases in equilibrium", "statement": "The forces on the three phase fractions add up to zero and give minus the derivative of the energy density along every change of fractions that keeps their sum, if the compositions are shared with the tilting weights. The solver uses the interpolation of each fraction instead: on the edges of the triangle, with type 'p', these are the same weights; inside they do not add up to one, so the property fails there.", "quantifier": "All energy functions, temperatures, fractions in the triangle and directions.", "why_tests_cant": "A constrained derivative over all fractions and energies.", "anchors": ["source/CALPHADFreeEnergyStrategyBinaryThreePhase.cc", "source/CALPHADequilibriumPhaseConcentrationsStrategy.cc", "source/TiltingFolchPlapp2005.cc"]}
{"id": "C80", "title": "Free energies and phase compositions use one thermodynamic model", "statement": "For every input with concentrations, the class that evaluates the free energies is the class that solves for the phase compositions. (False of the code for CALPHAD with one composition and several order parameters, if there is one solid phase or the database has a sublattice.)", "quantifier": "All combinations of order parameters, phases, compositions, concentration models and database kinds.", "why_tests_cant": "The two factories decide independently over many input combinations.", "anchors": ["source/FreeEnergyStrategyFactory.h", "source/PhaseConcentrationsStrategyFactory.h", "source/QuatModelParameters.cc", "source/CALPHADequilibriumPhaseConcentrationsStrategyMultiOrder.cc"]}
{"id": "C81", "title": "One red-black sweep relaxes every cell once", "statement": "In one sweep of the smoother every cell of a patch is relaxed by exactly one of the two colours, and its equation holds right after. (False of the code on patches with negative row indices: the Fortran integer division makes both colours skip the same cells there.)", "quantifier": "All patch boxes, coefficients, right-hand sides, fields.", "why_tests_cant": "Index arithmetic over all boxes; the failing boxes do not occur in the usual inputs.", "anchors": ["source/fortran/2d/ellipticfacops.m4", "source/EllipticFACOps.cc"]}
{"id": "C82", "title": "The smoother stops changing a field exactly when its residual is zero", "statement": "A field is left alone by any number of smoothing sweeps with any tolerance if and only if the residual computed by the solver vanishes in every cell of the level.", "quantifier": "All levels of disjoint patches with nonnegative rows, boundary rules, coefficients with a nonzero diagonal, fields.", "why_tests_cant": "An equivalence over all fields, levels and numbers of sweeps.", "anchors": ["source/EllipticFACOps.cc", "source/fortran/2d/ellipticfacops.m4"]}
{"id": "C83", "title": "The smoother converges to the solution of the preconditioner's equations", "statement": "For the signs of the preconditioner's problems and boundary rules that do not amplify, the equations of the coarsest level have exactly one solution, and smoothing without a tolerance converges to it from every initial guess, by a fixed factor below one per sweep in the maximum norm; on a refined level without flux correction too, to the solution for the spacing used in the fluxes.", "quantifier": "All levels, coefficients, right-hand sides, boundary rules, initial guesses and numbers of sweeps.", "why_tests_cant": "Convergence in the limit for every problem.", "anchors": ["source/EllipticFACOps.cc", "source/fortran/2d/ellipticfacops.m4"]}
{"id": "C84", "title": "The coarsest-level solve ends early only when its error is small", "statement": "When smoothing ends before the allowed number of sweeps because of its tolerance, the error is at most the tolerance divided by the smallest zeroth-order coefficient. (Holds on a level of one patch; false of the code for several patches, because the residual of the last patch replaces the others'.)", "quantifier": "All problems, tolerances, initial guesses and numbers of sweeps.", "why_tests_cant": "An error bound for all problems; the failure needs several patches per process.", "anchors": ["source/EllipticFACOps.cc"]}
{"id": "C85", "title": "The elliptic operator is consistent with the differential equation on every level", "statement": "The residual of a quadratic field with a linear diffusion coefficient equals the residual of m div(D grad u) + C u = f at the cell centre. (Holds on the coarsest level; false of the code on refined levels, where the fluxes are computed with the coarsest level's spacing.)", "quantifier": "All quadratic fields, linear coefficients, spacings and cells.", "why_tests_cant": "An identity over all fields; the preconditioned iteration hides the error in runs.", "anchors": ["source/EllipticFACOps.cc", "source/fortran/2d/ellipticfacops.m4"]}
{"id": "C86", "title": "The flux correction at coarse-fine boundaries is exact for linear fields", "statement": "The fluxes through the sides of a coarse-fine boundary, after the Ewing correction, are D times the slope for every linear field. (False of the code on refined levels for lack of the level's spacing, and for the second and later components, corrected with the first component's diffusion coefficient.)", "quantifier": "All patches and boundary boxes aligned with coarse cells, refinement ratios, linear fields, diffusion coefficients.", "why_tests_cant": "An identity over all refinement patterns and fields.", "anchors": ["source/EllipticFACOps.cc", "source/fortran/2d/ellipticfacops.m4"]}
{"id": "C87", "title": "The preconditioner's blocks are I - gamma J of the equations being integrated", "statement": "For the gradient and well terms of the phase equation, for heat conduction and for diffusion with given coefficients, the operator the preconditioner inverts is z - gamma J z with J the derivative of the right-hand side; the coupling term added to the temperature block is gamma times the derivative of the latent heat term. (False of the code for the single well, and for the coupling of the phase block to the temperature.)", "quantifier": "All fields, corrections, coefficients, spacings, gamma.", "why_tests_cant": "Derivatives of right-hand sides along every direction at every state.", "anchors": ["source/QuatIntegrator.cc", "source/PhaseFACOps.cc", "source/TemperatureFACOps.cc", "source/ConcFACOps.cc", "source/PhaseTemperatureFACOps.cc", "source/DeltaTemperatureFreeEnergyStrategy.cc"]}
{"id": "C88", "title": "The phase block of the preconditioner can be inverted for every phase field below a time step bound", "statement": "If 16 gamma M W < 1 (mobility M, well height W) the phase block has exactly one solution for every right-hand side, whatever the phase field, and the smoother finds it; at equality it is singular for the uniform field 1/2.", "quantifier": "All phase fields, mobilities up to M, right-hand sides, boundary rules that do not amplify.", "why_tests_cant": "Solvability for every state.", "anchors": ["source/PhaseFACOps.cc", "source/EllipticFACOps.cc", "source/QuatIntegrator.cc"]}
{"id": "C89", "title": "The diffusion coefficient of an alloy lies between those of its phases and equals the phase's own coefficient inside a phase", "statement": "Where the phase fractions sum to one, the composition diffusion coefficient of a face is a weighted mean, with weights between 0 and 1 that sum to 1, of the coefficients of the phases at the temperature of the face; inside a phase it is that phase's coefficient. (False of the code for PBG interpolation with three phases, for the default harmonic average with several order parameters, and on the y faces of the temperature dependent strategy with several order parameters; the biased interpolation accepted by the input stops the run.)", "quantifier": "All fields, temperatures, coefficients, boxes, interpolation and average types that the kernels implement.", "why_tests_cant": "Bounds for every mixture of phases at every face.", "anchors": ["source/fortran/2d/concentrationdiffusion.m4", "source/ScalarCompositionDiffusionStrategy.cc", "source/TbasedCompositionDiffusionStrategy.cc", "source/CompositionDiffusionStrategy.h", "source/QuatModelParameters.cc", "source/fortran/functions.f"]}
{"id": "C90", "title": "Diffusion coefficients and fluxes do not depend on the decomposition into patches", "statement": "Two patches that share a face compute the same diffusion coefficient for it, whatever the arrays held before, and so do the fluxes of the isotropic stencil computed from the coefficients. (False of the code for temperature dependent interface diffusion, which gives half to faces on a patch boundary, and for the isotropic stencil with several order parameters, which reads ghost faces nobody wrote.)", "quantifier": "All fields, pairs of boxes, previous contents, strategies.", "why_tests_cant": "Every decomposition and every previous content of memory.", "anchors": ["source/fortran/2d/concentrationdiffusion.m4", "source/fortran/2d/flux.m4", "source/ScalarCompositionDiffusionStrategy.cc", "source/TbasedCompositionDiffusionStrategy.cc", "source/WangSinteringCompositionDiffusionStrategy.cc", "source/EBSCompositionRHSStrategy.cc"]}
{"id": "C91", "title": "Diffusion coefficients do not prefer an axis or an orientation of an axis", "statement": "Exchanging the axes of the fields exchanges the coefficients of the x and y faces, and mirrored fields have mirrored coefficients. (False of the code for the liquid with several order parameters and temperature dependence, and for the Beckermann kernel under mirroring.)", "quantifier": "All fields, boxes, strategies.", "why_tests_cant": "Symmetry for all fields.", "anchors": ["source/fortran/2d/concentrationdiffusion.m4", "source/ScalarCompositionDiffusionStrategy.cc", "source/TbasedCompositionDiffusionStrategy.cc", "source/WangSinteringCompositionDiffusionStrategy.cc", "source/BeckermannCompositionRHSStrategy.cc"]}
{"id": "C92", "title": "Interface diffusion acts only where two order parameters meet, is bounded by its coefficient, and does not depend on the numbering of grains", "statement": "The enhanced diffusion of a face (for the temperature dependent strategy: of a face inside its patch, see C90) is the mean over its two cells of a quantity that is never negative, is zero in a cell where at most one order parameter exceeds 0.01, is at most the coefficient of the two phases that meet when their order parameters sum to at most one, and equals it where both are 1/2; exchanging the numbers of two grains of one phase changes no coefficient.", "quantifier": "All fields, numbers of grains, pairs of phases, coefficients.", "why_tests_cant": "All numbers and arrangements of grains in a cell.", "anchors": ["source/fortran/2d/concentrationdiffusion.m4", "source/ScalarCompositionDiffusionStrategy.cc", "source/TbasedCompositionDiffusionStrategy.cc", "source/WangSinteringCompositionDiffusionStrategy.cc"]}
{"id": "C93", "title": "The level solver of the orientation block solves the equation whose residual the multigrid cycle computes", "statement": "On every level made of disjoint patches, for a field that satisfies the Robin conditions at the boundary of the level, the residual computed by the multigrid cycle equals the right-hand side given to hypre minus the assembled matrix times the field, in every cell, across patches and at physical and coarse-fine boundaries. (False of the code at a physical boundary where the mobility of the ghost cell differs from the one inside: the diagonal uses the inside mobility twice.)", "quantifier": "All levels, patches, boundary boxes, coefficients, fields, right-hand sides.", "why_tests_cant": "Agreement of two independently coded discretisations on all levels and fields.", "anchors": ["source/QuatLevelSolver.cc", "source/fortran/2d/quatlevelsolver.m4", "source/QuatFACOps.cc", "source/fortran/2d/quatfacops.m4"]}
{"id": "C94", "title": "The matrix of the orientation block is symmetric positive definite, so conjugate gradients apply and the solution is unique", "statement": "The assembled matrix of a level is symmetric; for a nonnegative time step factor, nonnegative diffusion and Robin coefficients between 0 and 1, x.Ax >= x.x for every field, so the system has at most one solution.", "quantifier": "All levels, patches, mobilities, coefficients, fields.", "why_tests_cant": "Definiteness for every state and mesh.", "anchors": ["source/QuatLevelSolver.cc", "source/fortran/2d/quatlevelsolver.m4"]}
{"id": "C95", "title": "Solving the orientation block solves the implicit orientation equation with frozen coefficients", "statement": "QuatSysSolver::solveSystem divides the right-hand side by the square root of the mobility and multiplies the solution by it: the residual of the symmetric system times the square root of the mobility is the residual of q - gamma M div(D grad q) = rhs, and an exact solution of the one gives an exact solution of the other.", "quantifier": "All fields, positive mobilities, diffusion coefficients, time step factors.", "why_tests_cant": "Equivalence of two systems for all data.", "anchors": ["source/QuatSysSolver.cc", "source/QuatFACOps.cc", "source/fortran/2d/quatfacops.m4"]}
{"id": "C96", "title": "The orientation level solver solves every component and reports success only if all converged", "statement": "solveSystem solves all components of the orientation and returns true exactly when the relative residual of every component is within the tolerance. (False of the code for solver types 2 and 3: only the first component is solved and checked.)", "quantifier": "All numbers of components, residuals, tolerances, solver types.", "why_tests_cant": "All combinations of component residuals.", "anchors": ["source/QuatLevelSolver.cc", "source/QuatLevelSolver.h"]}
{"id": "C97", "title": "A Cahn-Hilliard run conserves mass and never raises its energy", "statement": "Along every solution of the rates that the code gives to the time integrator for Cahn-Hilliard composition, on a box with periodic or no-flux sides, the total composition is constant and the discrete double-well plus gradient energy does not grow.", "quantifier": "All boxes, mesh spacings, parameters with nonnegative mobility, solutions, times.", "why_tests_cant": "A statement about all trajectories.", "anchors": ["source/CahnHilliardDoubleWell.cc", "source/CompositionRHSStrategyFactory.h", "source/QuatIntegrator.cc", "source/fortran/2d/quatrhs.m4"]}
{"id": "C98", "title": "A sintering run without rigid motion conserves mass and never raises its energy", "statement": "Along every solution of the sintering (Wang) rates of composition and order parameters on a box with periodic or no-flux sides, with nonnegative mobilities and diffusion coefficients varying in space and time, the total composition is constant and the discrete bulk plus gradient energy (with the gradient coefficients the code uses) does not grow.", "quantifier": "All boxes, numbers of order parameters greater than one, parameters, coefficients, solutions, times.", "why_tests_cant": "A statement about all trajectories of a coupled system.", "anchors": ["source/SinteringUWangRHSStrategy.cc", "source/WangSinteringCompositionRHSStrategy.cc", "source/CompositionRHSStrategyFactory.h", "source/PhaseFluxStrategyFactory.h", "source/QuatIntegrator.cc"]}
{"id": "C99", "title": "The physical parameters of a sintering run mean what their names say", "statement": "Rates are proportional to the mobilities and diffusion coefficients, and a grain boundary at rest has the width given in the input. (False of the code: the mobility of the composition enters squared, and the gradient coefficient of the order parameters is epsilon^3/2 instead of epsilon^2/2, so the boundary has width delta (6 sigma delta)^(1/4).)", "quantifier": "All parameters, fields, boxes.", "why_tests_cant": "Scaling for all values; the tests in the repository use values where the wrong powers cannot be seen.", "anchors": ["source/QuatModelParameters.cc", "source/CompositionRHSStrategyFactory.h", "source/QuatIntegrator.cc", "source/SinteringUWangRHSStrategy.cc", "source/PhaseFluxStrategyFactory.h"]}
{"id": "C100", "title": "Void and single grains are the only states of lowest bulk energy, and they are at rest", "statement": "For A >= 0, B > 0, composition and order parameters in [0,1], the sintering energy density is nonnegative and vanishes exactly for the void (everything zero) and for the inside of one grain (composition and one order parameter one, the others zero); a box filled with such a state has rates zero.", "quantifier": "All numbers of order parameters, all values in [0,1].", "why_tests_cant": "A global minimum over a continuum in any dimension.", "anchors": ["source/fortran/2d/quatrhs.m4", "source/SinteringUWangRHSStrategy.cc", "source/WangSinteringCompositionRHSStrategy.cc"]}
{"id": "C101", "title": "Sintering order parameters stay between zero and one", "statement": "Along every solution of the sintering rates on a box with periodic or no-flux sides an order parameter that starts in [0,1] stays in [0,1], whatever the composition and the other order parameters do.", "quantifier": "All boxes, numbers of order parameters greater than one, parameters, bounded mobilities, solutions, times.", "why_tests_cant": "An invariant of all trajectories.", "anchors": ["source/SinteringUWangRHSStrategy.cc", "source/PhaseFluxStrategySimple.cc"]}
{"id": "C102", "title": "Rigid motion moves every grain with the force on it, takes the composition along and balances momentum", "statement": "Every grain moves with mobility over volume times the sum of external and pair forces, the composition is carried with the same fields and velocities, mass and volumes do not change on a periodic box, and antisymmetric pair forces cancel. (False of the code when norderp_A = norderp, as for sintering: the last grain never moves and the reaction on it is lost.)", "quantifier": "All fields, boxes, numbers of grains, forces.", "why_tests_cant": "Balance for all states and numbers of grains.", "anchors": ["source/QuatIntegrator.cc", "source/RigidBodyMotionRHS.cc", "source/RigidBodyMotionConcRHS.cc", "source/QuatModelParameters.cc"]}
{"id": "C103", "title": "Ghost cells at a physical boundary satisfy the configured Robin condition", "statement": "After the boundary fill of a patch, on every face of every physical side a*u + b*du/dn = g holds in the discrete sense between ghost and interior cell, for each depth of the data (g taken as zero in homogeneous mode). Corner ghost cells continue the data linearly, cells of the patch, other depths and cells outside the boundary boxes keep their values, and the order in which the boundary boxes are listed does not matter.", "quantifier": "All patches, boundary coefficients varying along the sides, data, depths, lists of boundary boxes, ghost widths of at least one.", "why_tests_cant": "Holds for all coefficients and box lists; the test in the repository fills one box with one set of coefficients.", "anchors": ["source/CartesianRobinBcHelperWithDepth.cc"]}
{"id": "C104", "title": "Boundary filling is exact where it should be", "statement": "No-flux conditions mirror the cells along the boundary (including corners), so that the rates are those of the mirrored field; conditions satisfied by an affine field continue that field exactly; and the fill commutes with the change of temperature unit used by the implicit solver.", "quantifier": "All patches, data, affine fields, coefficients, positive unit factors.", "why_tests_cant": "Identities for all fields and coefficients.", "anchors": ["source/CartesianRobinBcHelperWithDepth.cc", "source/QuatRefinePatchStrategy.cc"]}
{"id": "C105", "title": "Rates do not depend on what the ghost cells held before they were filled", "statement": "For a patch inside the physical boundary two data sets that agree in the patch give equal rates after the boundary fill, for every kernel that reads ghost cells. (True for phase, temperature, moving frame and fourth-order diffusion. False for Cahn-Hilliard and sintering composition: the kernel reads two ghost layers, the fill sets one, and the rate next to the boundary can take any value.)", "quantifier": "All patches, data, boundary conditions, previous contents of the ghost cells.", "why_tests_cant": "Stale memory usually holds plausible values, so a run shows nothing; the repository tests these kernels only with periodic sides.", "anchors": ["source/CartesianRobinBcHelperWithDepth.cc", "source/CahnHilliardDoubleWell.cc", "source/WangSinteringCompositionRHSStrategy.cc", "source/QuatModelParameters.h", "source/fortran/2d/quatrhs.m4", "source/fortran/2d/concentrationrhs.m4"]}
{"id": "C106", "title": "The uniform temperature follows the configured ramp and stops at its target", "statement": "With a uniform temperature, the temperature at time t is the initial value plus rate times t, held at the target once it is reached (without a limit when heating with no target). It starts at the initial value, never changes faster than the rate, is monotone, stays between initial value and target, and after any sequence of updates both copies of the field, ghost cells included, hold the value of the last time. A target on the wrong side of the initial value should not change the temperature at once.", "quantifier": "All initial values, rates, targets, times, sequences of updates, patches and ghost widths.", "why_tests_cant": "Holds for all parameters and update sequences; tests compare a few time steps of one ramp.", "anchors": ["source/ScalarTemperatureStrategy.cc"]}
{"id": "C107", "title": "The Gaussian temperature is the profile around the nearest image of the moving center", "statement": "With a Gaussian temperature the field at time t is base + (peak - base) exp(-d^2 / 2 sigma^2), where d is the distance to the nearest periodic image of the center at time t and the peak follows its ramp. The wrapping of the center terminates, the field lies between base and peak and does not depend on the decomposition into patches, and after any sequence of updates it is the profile of the last time.", "quantifier": "All parameters, domains, periodic directions, times of either sign, update sequences, patches within half a period of the domain.", "why_tests_cant": "The distance to infinitely many images and the sequence of updates are unbounded.", "anchors": ["source/GaussianTemperatureStrategy.cc", "source/fortran/2d/temperature.m4"]}
{"id": "C108", "title": "A frozen temperature gradient is at rest in the laboratory while the frame moves", "statement": "With a frozen gradient the temperature is affine, and as a function of laboratory position (frame position plus distance travelled) it does not depend on how often and how the frame velocity was changed. With a temperature history it is the tangent of the table at the frame position, and reproduces bilinear tables exactly. The average that is reported equals the mean over a box.", "quantifier": "All gradients, rates, tables, sequences of velocity changes, times, patches.", "why_tests_cant": "Sequences of velocity changes are unbounded.", "anchors": ["source/GradientTemperatureStrategy.cc", "source/GradientTemperatureStrategy.h", "source/fortran/2d/temperature.m4"]}
{"id": "C109", "title": "A restarted run has the temperature of the uninterrupted run", "statement": "After a restart, the prescribed temperature at any later time equals that of the run without interruption, for uniform temperatures and frozen gradients with fixed or adaptive frame velocity.", "quantifier": "All parameters, velocity changes before and after the restart, times.", "why_tests_cant": "Needs all histories of velocity changes; restart tests use a fixed frame.", "anchors": ["source/GradientTemperatureStrategy.cc", "source/ScalarTemperatureStrategy.cc", "source/QuatModel.cc", "source/QuatIntegrator.cc"]}
{"id": "C110", "title": "The heat capacity is the mixture of the species and its units follow those of the temperature", "statement": "In every cell the heat capacity is the composition-weighted sum of the polynomials of the species at the temperature of the cell, whatever powers the species use, and lies between those of the species. When the temperature is rescaled by the melting temperature, the rate of the rescaled temperature is the rate divided by that factor.", "quantifier": "All species polynomials, compositions, temperatures, numbers of compositions, factors.", "why_tests_cant": "Identities for all polynomials; the table of powers depends on all species together.", "anchors": ["source/NKRHeatCapacityStrategy.cc", "source/fortran/2d/temperature.m4", "source/QuatModelParameters.cc"]}
{"id": "C111", "title": "Steady heat conduction solves the heat equation with the configured source", "statement": "A temperature solves the linear system that is handed to the solver exactly if heat capacity times diffusivity times the discrete Laplacian plus the configured source (mixture of the sources of the compositions, or Gaussian in space and time, in the units of the input) vanish in every cell; the scaling of the system does not matter. Without cooling sources the temperature is nowhere below its smallest value next to the patch.", "quantifier": "All sources, compositions, heat capacities, diffusivities, times, centers, periodic directions, patches.", "why_tests_cant": "Equivalence for all fields.", "anchors": ["source/SteadyStateTemperatureCompositionSource.cc", "source/SteadyStateTemperatureGaussianSource.cc", "source/fortran/2d/temperature.m4"]}
{"id": "C112", "title": "A run started from a written initial-conditions file has the state that was written", "statement": "When a run writes its fields as a file of initial conditions on some level and another run with the same model reads that file on a grid of that size, every order parameter, composition, orientation component and the temperature has in every cell the written value rounded to single precision, for any distribution of the patches over processes on either side, in 2D and 3D. The relative error is at most 2^-24, and values that have been through a file once are not changed again.", "quantifier": "All fields, domains, refinement ratios, patch decompositions, numbers of processes, numbers of compositions and orientation components.", "why_tests_cant": "Decompositions and fields are unbounded; tests compare one file.", "anchors": ["source/FieldsWriter.cc: FieldsWriter::writeInitialConditionsFile", "source/FieldsInitializer.cc: FieldsInitializer::initializeLevelFromData, initializePatchFromData", "source/QuatModel.cc: QuatModel::WriteInitialConditionsFile"]}
{"id": "C113", "title": "All order parameters survive an initial-conditions file", "statement": "Writing and reading a file of initial conditions restores all order parameters of a run with several order parameters (polycrystal) up to single precision. Reading a file with numbered order parameters sets each of them, and if the last one is not in the file it is one minus the sum of the others.", "quantifier": "All fields, numbers of order parameters, decompositions.", "why_tests_cant": "Needs all fields and numbers of order parameters.", "anchors": ["source/FieldsWriter.cc: FieldsWriter::writeInitialConditionsFile", "source/FieldsInitializer.cc: FieldsInitializer::initializeLevelFromData, initializePatchFromData", "source/QuatModelParameters.cc"]}
{"id": "C114", "title": "Temperatures in initial-conditions files have the units of the input", "statement": "A run that solves for the temperature in reduced units reads the temperature of the file, or the uniform value of the input, in Kelvin and divides it by the melting temperature once. A file that this run writes can be read again by it. If the temperature is prescribed, the temperature in the file has no effect.", "quantifier": "All fields, melting temperatures, decompositions.", "why_tests_cant": "Needs all fields.", "anchors": ["source/QuatModel.cc: QuatModel::Initialize, WriteInitialConditionsFile", "source/FieldsInitializer.cc", "source/FieldsWriter.cc"]}
{"id": "C115", "title": "Unsuitable initial-conditions files are refused and inputs take precedence over the file", "statement": "No run starts from a file in which a needed variable is missing or whose order parameter does not have the size of the grid, or whose number of orientation components differs. Uniform values of the input (init_q, init_c, init_t) are used in every cell instead of the file. In 2D, slice_index selects the plane of a 3D file.", "quantifier": "All files, grids, parameters, uniform values, slices.", "why_tests_cant": "All files and inputs.", "anchors": ["source/FieldsInitializer.cc: FieldsInitializer::initializeLevelFromData, checkInputFileDimensions, initializePatchFromData", "source/PFModel.cc: PFModel::readInitialDatabase"]}
{"id": "C116", "title": "Grain volumes are the volumes of the grains", "statement": "Grain diagnostics report for each grain number that occurs the total control volume of the cells with that number, over all levels, patches and processes, and no other number; the field of grain volumes written for visualization holds in every cell of a grain the volume of that grain and zero elsewhere. With the numbering found on one level, each connected grain is reported once with positive volume. The result does not depend on how patches are distributed over processes.", "quantifier": "All numberings, control volumes, hierarchies, decompositions and numbers of processes.", "why_tests_cant": "Decompositions and fields are unbounded; tests run few processes.", "anchors": ["source/Grains.cc: Grains::computeGrainVolumes", "source/tools.cc: listLocalToGlobal"]}
{"id": "C117", "title": "Grain concentrations are volume averages over the grains", "statement": "For each grain that occurs, the reported concentration is the average over its cells weighted by control volume and the reported deviation the weighted average of the squared difference from it; the overall concentration is the weighted average over all grains. Averages lie within the range of the composition in the grain; the deviation is never negative and is zero exactly for a uniform composition.", "quantifier": "All compositions, numberings, control volumes, hierarchies, decompositions and numbers of processes.", "why_tests_cant": "Decompositions and fields are unbounded.", "anchors": ["source/Grains.cc: Grains::computeGrainConcentrations", "source/tools.cc: listLocalToGlobal"]}
{"id": "C118", "title": "Extending grain orientations gives every cell the orientation of a nearest grain", "statement": "After the orientations of the grains have been extended, every cell outside the grains has the orientation of a grain cell with the least number of face-to-face steps from it, cells of grains keep their orientation, and convergence is reported exactly if no cell was left out, for any decomposition of the domain.", "quantifier": "All sets of grains, domain sizes, periodicities, decompositions, numbers of processes and orientations.", "why_tests_cant": "Distances and decompositions are unbounded; the error needs two patches on a process or a long way around.", "anchors": ["source/Grains.cc: Grains::extendGrainOrientation", "source/QuatModel.cc: QuatModel::resetGrains"]}
{"id": "C119", "title": "Smoothing after a change of grains averages orientations and damps oscillations", "statement": "Each smoothing step replaces the orientation of the cells whose order parameter is below the threshold by an average of their own and their neighbours' orientation with non-negative weights that sum to one, and leaves all other cells alone. Components stay in their range, lengths do not grow, the sum of squared differences does not increase, and oscillations from cell to cell are damped, in 2D and 3D.", "quantifier": "All orientation fields, numbers of components, thresholds, patches and ghost values.", "why_tests_cant": "Holds for all fields; an undamped oscillation needs a special field.", "anchors": ["source/QuatModel.cc: QuatModel::smoothQuat", "source/fortran/2d/smoothquat.m4: smoothquat", "source/fortran/3d/smoothquat.m4: smoothquat"]}
{"id": "C120", "title": "Smoothing keeps orientations valid and independent of the representative", "statement": "After smoothing, orientations still have unit length, and in a run that knows the crystal symmetry the result in each cell is, up to equivalence, the same whichever of the equivalent orientations is stored in its neighbours.", "quantifier": "All unit orientation fields, symmetry rotations, patches.", "why_tests_cant": "Needs all fields and all rotations.", "anchors": ["source/QuatModel.cc: QuatModel::smoothQuat, computeQuatDiffs, resetGrains", "source/fortran/2d/smoothquat.m4: smoothquat", "source/computeQDiffs.cc"]}
{"id": "C121", "title": "Atomic mobilities follow from the coefficients in the mobility database", "statement": "The mobility of a species in a phase is exp(dG/RT)/RT with dG the Redlich-Kister expansion of the coefficients of the database in the local composition, for alloys of two, three and four elements. It is positive, follows Arrhenius' law in pure elements, does not depend on the order in which elements are named, and the mobility in a binary edge of a ternary alloy is that of the binary alloy with the same coefficients. Tables written before the run hold the diffusivities of the species they are labelled with.", "quantifier": "All databases with positive prefactors, compositions, temperatures.", "why_tests_cant": "All compositions, temperatures and databases; a forgotten term only shows with special coefficients.", "anchors": ["source/CALPHADMobility.cc: CALPHADMobility::initialize, getDeltaG, printDiffusionVsTemperature", "source/CALPHADMobility.h: getAtomicMobility, getQ", "source/diagnostics.cc: preRunDiagnosticsMobilityInPhases"]}
{"id": "C122", "title": "Mobility matrices are symmetric, positive and lattice-free", "statement": "The mobility of a binary alloy is never negative, vanishes in pure elements and, multiplied with the curvature of an ideal solution, is Darken's interdiffusion coefficient between the two tracer diffusivities. The matrix of a ternary alloy is symmetric and positive semi-definite on the composition simplex, positive definite inside, vanishes for absent species, gives the fluxes in the frame where all fluxes add up to zero, and agrees with the binary mobility on the edge.", "quantifier": "All mobilities, compositions on the simplex, temperatures and driving forces.", "why_tests_cant": "A definiteness statement over all compositions and forces.", "anchors": ["source/CALPHADMobility.cc: computeDiffusionMobilityBinaryPhase, computeDiffusionMobilityTernaryPhase", "source/CompositionStrategyMobilities.cc: computeDiffusionMobilityPhaseL, computeDiffusionMobilityPhaseA"]}
{"id": "C123", "title": "Composition fluxes from mobilities are down-hill and produce entropy", "statement": "With diffusion from mobilities, the flux through each face is the weighted sum over the phases of mobility times curvature of the free energy at the mean composition and temperature times the slope of the composition of the phase, with weights in [0,1] that select a single phase inside it. In a stable phase of a binary alloy it runs down-hill, in a stable phase of a ternary alloy the two fluxes produce entropy. Compositions that pass the checks of the cells do not stop the run.", "quantifier": "All fields, mobilities, Hessians, interpolation and averaging types, patches, directions.", "why_tests_cant": "All fields and Hessians; the wrong order of two factors is invisible in binary alloys and where species are equally mobile.", "anchors": ["source/MobilityCompositionDiffusionStrategy.cc: setDiffusion, setDiffCoeffInEachPhaseOnPatch, setPFMDiffOnPatch, small_mat_mult", "source/EBSCompositionRHSStrategy.cc: computeFluxOnPatch", "source/fortran/2d/concentrationrhs.m4: add_flux"]}
{"id": "C124", "title": "Thermal diffusion adds a flux along the temperature gradient", "statement": "If gradT_Q0 and gradT_Q1 are given in the input, the flux of the composition through each face is that of the composition plus a contribution proportional to the relative slope of the temperature and to the heats of transport; without them, or at uniform temperature, it is that of the composition alone.", "quantifier": "All inputs, forms of the composition equation, temperatures, coefficients, patches.", "why_tests_cant": "No test of the repository uses these inputs; needs all fields.", "anchors": ["source/QuatModelParameters.cc: readConcDB", "source/CompositionRHSStrategy.cc: addFluxFromGradTonPatch", "source/EBSCompositionRHSStrategyWithGradT.cc", "source/CompositionRHSStrategyFactory.h: create", "source/fortran/2d/concentrationrhs.m4: addconcentrationfluxfromgradt"]}
{"id": "C125", "title": "The given interface mobility is the speed of a flat interface per driving force", "statement": "With Kim's phase mobility and an interface mobility m, a flat interface under a uniform driving force G per volume moves with speed m G: the equation of the order parameter has a front of that speed that keeps its shape. With a kinetics coefficient beta instead, a front in a dilute alloy moves with undercooling/beta. What is given in the input is used or refused.", "quantifier": "All parameters, driving forces, undercoolings, alloys, input databases.", "why_tests_cant": "A statement about an exact solution of a partial differential equation for all parameters.", "anchors": ["source/QuatModelParameters.cc: readPhaseMobility", "source/MobilityFactory.h: create, createInternal, create3phasesMobility", "source/KimMobilityStrategyFiniteMob.cc: KimMobilityStrategyFiniteMob", "source/KimMobilityStrategyInfMob3Phases.cc: evaluateMobility"]}
{"id": "C126", "title": "Kim's mobilities are positive, finite and consistent with each other", "statement": "In a stable liquid Kim's mobility for local equilibrium is positive and finite; the one with antitrapping adds its resistance to that of the finite interface mobility, so it never exceeds either. Its constant is the integral of h(phi)/phi of the interpolation in use. A polynomial for zeta given in the input replaces the direct formula, and the mobility depends continuously on temperature.", "quantifier": "All parameters, temperatures, compositions, Hessians of binary and ternary alloys, polynomials.", "why_tests_cant": "Positivity and limits over all compositions; the constant is an integral that is wrong for an option that tests rarely use.", "anchors": ["source/KKStools.cc: kks_mobility_factor", "source/KimMobilityStrategyInfMob.cc: evaluateMobility", "source/KimMobilityStrategyFiniteMobAntiTrap.cc: evaluateMobility", "source/QuatModelParameters.h: zetaFactor, zetaFactorLA"]}
{"id": "C127", "title": "Loops with running indices pair the data of the same cell", "statement": "Kim's mobility and the phase compositions of a dilute alloy are computed in every cell of a patch, ghosts included, from temperature, phase and compositions of that same cell, whatever the ghost widths of the arrays, in two and three dimensions. No access is outside of an array and nothing else is written.", "quantifier": "All boxes, ghost widths at least that of the result, data, 2D and 3D.", "why_tests_cant": "Index arithmetic over all boxes and all ghost widths; wrong increments only show with unequal widths.", "anchors": ["source/KimMobilityStrategy.cc: KimMobilityStrategy::update", "source/KKSdiluteEquilibriumPhaseConcentrationsStrategy.cc: computePhaseConcentrationsOnPatch"]}
{"id": "C128", "title": "The mobility of the orientation stays between its limits and falls with the phase", "statement": "For every input the program accepts, the mobility of the orientation is a number that falls as the phase grows, from orient_mobility in the liquid to min_orient_mobility in the solid. For the inverse function it is limited by max_orient_mobility. It is computed for every cell of a patch and one layer of ghosts from the phase of the same cell.", "quantifier": "All input databases, phases, boxes, ghost widths, 2D and 3D.", "why_tests_cant": "Bounds over all real phases and parameters; overflow for default parameters shows only with one option.", "anchors": ["source/QuatModelParameters.cc: initializeOrientation, quatMobilityScaleFactor", "source/QuatModel.cc: computeQuatMobility", "source/fortran/2d/mobility.m4: quatmobility", "source/fortran/3d/mobility.m4: quatmobility"]}
{"id": "C129", "title": "The kernel for the derivative of the orientation mobility returns its derivative", "statement": "For every phase and every function the input allows, the derivative that enters the preconditioner is the derivative of the mobility that the right-hand side uses.", "quantifier": "All input databases, phases, boxes, ghost widths, 2D and 3D.", "why_tests_cant": "A derivative is a limit; a wrong one only slows down the solver and changes no test result.", "anchors": ["source/fortran/2d/mobility.m4: quatmobilityderiv", "source/fortran/3d/mobility.m4: quatmobilityderiv", "source/QuatModel.cc: computeQuatMobilityDeriv"]}
{"id": "C130", "title": "The mobility of eta follows an Arrhenius law in the liquid and falls to its minimum in the solid", "statement": "The mobility of eta is eta_mobility exp(-q0/RT) in the liquid and falls with the phase to min_eta_mobility, never below it; it does not fall when the temperature rises. Every cell uses its own temperature and phase whatever the ghost widths, and the shortcut for constant mobility gives the same values.", "quantifier": "All parameters, temperatures, phases, boxes, ghost widths, 2D and 3D.", "why_tests_cant": "Bounds over all reals and index arithmetic over all boxes and ghost widths.", "anchors": ["source/QuatModel.cc: computeEtaMobility, computeEtaMobilityPatch", "source/QuatModelParameters.cc: initializeEta"]}
{"id": "C131", "title": "The preconditioner block d(orientation)/d(phase) is the derivative of the orientation right-hand side", "statement": "The product of the block with a change of the phase is the rate of change of the orientation right-hand side when the phase changes in that direction, mobility included.", "quantifier": "All phases, temperatures, orientations, changes of the phase, mobilities, options, patches.", "why_tests_cant": "A derivative in all directions at all states; a wrong block only slows down the solver.", "anchors": ["source/QuatFACOps.cc: multiplyDQuatDPhiBlock, setOperatorCoefficients, evaluateRHS", "source/DerivDiffusionCoeffForQuat.cc", "source/fortran/2d/quatdiffusion.m4: quatdiffusionderiv", "source/fortran/2d/quatfacops.m4: compute_dquatdphi_face_coef2d, multicomponent_multiply2d"]}
{"id": "C132", "title": "The right-hand side is a function of time and solution", "statement": "evaluateRHSFunction returns the same time derivatives for the same time and solution, whatever calls, preconditioner setups and regrids came before, and it returns.", "quantifier": "All configurations, strategies, arrays left by earlier calls, sequences of calls, times and solutions.", "why_tests_cant": "Hidden state in arrays and static variables shows only for particular orders of calls; the number of orders is not bounded.", "anchors": ["source/QuatIntegrator.cc: evaluateRHSFunction, setCoefficients, fillScratch, computeQuatGradients, computePhaseConcentrations, computeMobilities, CVSpgmrPrecondSet"]}
{"id": "C133", "title": "A perturbed right-hand side lags the quaternion side gradient and nothing else", "statement": "With lag_quat_sidegrad, a call that evaluates F(u + sigma v) for the Jacobian uses the quaternion side gradient of the last unperturbed call in the denominator of the quaternion diffusion; everything else is computed from the perturbed solution.", "quantifier": "All configurations, strategies, histories of calls, solutions and perturbations.", "why_tests_cant": "The lagged value depends on the whole history of calls, and a wrong Jacobian changes convergence, not results.", "anchors": ["source/QuatIntegrator.cc: evaluateRHSFunction, computeQuatGradients, setDiffusionCoeffForConcentration"]}
{"id": "C134", "title": "With the Aziz partition coefficient the phase equation and the front velocity are consistent", "statement": "With a partition coefficient that depends on the front velocity, evaluateRHSFunction iterates until velocity, partition coefficient and phase derivative agree to 1e-8, and returns.", "quantifier": "All strategies, memories, times, solutions.", "why_tests_cant": "A fixed point property for all states; whether the loop iterates cannot be seen from results of one run.", "anchors": ["source/QuatIntegrator.cc: evaluateRHSFunction, RegisterLocalVisitVariables", "source/QuatModel.cc: computeVelocity", "source/QuatModelParameters.cc: readVisitOptions"]}
{"id": "C135", "title": "The front velocity is computed from the phase gradient of the current solution", "statement": "After an unperturbed call the velocity array holds the phase derivative that was returned over the modulus of the gradient of the solution that was passed.", "quantifier": "All configurations, strategies, histories of calls and regrids, solutions.", "why_tests_cant": "The stale gradient appears only for two calls at one time with different solutions, as a solver makes them.", "anchors": ["source/QuatModel.cc: computePhaseDiffs, computePhaseGradCell, computeVelocity", "source/QuatIntegrator.cc: setCoefficients"]}
{"id": "C136", "title": "Visualized right-hand sides and velocities are those of the last unperturbed call", "statement": "With rhs_output the arrays written for visualization hold what the last unperturbed call returned; perturbed calls and preconditioner setups change neither these arrays nor the velocity.", "quantifier": "All configurations, strategies, sequences of calls.", "why_tests_cant": "Sequences of calls of any length.", "anchors": ["source/QuatIntegrator.cc: evaluateQuatRHS, evaluateConcentrationRHS, evaluateTemperatureRHS", "source/QuatIntegrator.h: evaluatePhaseRHS, evaluateQuatRHS, evaluateTemperatureRHS"]}
{"id": "C137", "title": "The velocity kernel returns the normal speed of the front", "statement": "The velocity is the time derivative of the phase over the modulus of its gradient, regularized where the gradient is small: same sign as the derivative, bounded by 50 dx times it, at most the speed of a front that moves without changing shape and within 1/(5000 dx^2 |grad|^2) of it, in every cell; it does not depend on the direction of the axes.", "quantifier": "All gradients, derivatives, mesh spacings, 2D and 3D.", "why_tests_cant": "Bounds over all reals.", "anchors": ["source/fortran/2d/grad.m4: velocity", "source/fortran/3d/grad.m4: velocity", "source/QuatModel.cc: computeVelocity"]}
{"id": "C138", "title": "A database file reaches the free energy functions entry by entry", "statement": "After copyDatabase, the property tree has, under the same path, a node for every section and every array of characters, numbers, strings and booleans of the database, in the same order, and no other nodes.", "quantifier": "All databases of any depth and size with one entry per name.", "why_tests_cant": "A lost entry is replaced by a default of the reader and changes results silently; tests use a few files.", "anchors": ["source/Database2JSON.cc: copyDatabase", "source/CALPHADFreeEnergyStrategyBinary.cc: setup", "source/KKSdiluteBinary.cc: setup"]}
{"id": "C139", "title": "Numbers of the thermodynamic file are used as they are written", "statement": "The value the free energy functions read for a number of the database is the double that the database holds.", "quantifier": "All databases, all paths, all numbers away from underflow.", "why_tests_cant": "The digits that are dropped do not show in any tolerance-based test.", "anchors": ["source/Database2JSON.cc: copyDatabase"]}
{"id": "C140", "title": "A thermodynamic file can be converted to JSON without changing the run", "statement": "convertDatabase2JSON accepts every database file; the JSON file it writes, and a JSON file written by hand with the same content, give the free energy functions the same tree as the database file.", "quantifier": "All databases and JSON documents.", "why_tests_cant": "The statement is about all documents; the tests have three JSON files.", "anchors": ["drivers/convertDatabase2JSON.cc: main", "source/Database2JSON.cc: copyDatabase", "source/PhaseConcentrationsStrategyFactory.h: create"]}
{"id": "C141", "title": "Every component of a run reads the same thermodynamic file", "statement": "The free energy, phase concentration, mobility and partition coefficient strategies open the file named in the input in the format its name tells, get the same data and the same Newton solver parameters, and a run with a valid file starts.", "quantifier": "All file names, files and combinations of options.", "why_tests_cant": "The number of combinations of options, formats and names is large; most are not tested.", "anchors": ["source/FreeEnergyStrategyFactory.h: create", "source/PhaseConcentrationsStrategyFactory.h: create", "source/KimMobilityStrategy.cc: KimMobilityStrategy", "source/AzizPartitionCoefficientStrategy.cc: AzizPartitionCoefficientStrategy", "source/CALPHADFreeEnergyStrategyTernary.cc: setup", "source/CompositionStrategyMobilities.cc: CompositionStrategyMobilities"]}
{"id": "C142", "title": "Copying a database into a database is exact", "statement": "copyDatabase from a database into an empty one reproduces every section and entry.", "quantifier": "All databases.", "why_tests_cant": "All depths, types and sizes.", "anchors": ["source/Database2JSON.cc: copyDatabase"]}
{"id": "C143", "title": "A block solve of the preconditioner reports convergence truthfully", "statement": "FACPreconditioner::solveSystem returns true exactly when the composite residual of the solution it leaves is below the tolerance set by CVODE, or below relative_residual_tol times the norm of the right-hand side; the solution it leaves agrees with its own average on overlapping levels, and old content of the work arrays has no influence.", "quantifier": "All numbers of levels, operators, smoothers, tolerances, guesses and right-hand sides, with a restriction of the solution that is idempotent.", "why_tests_cant": "Truth of the flag concerns every operator and hierarchy; a test sees one converged solve.", "anchors": ["source/samrai/FACPreconditioner.cc: solveSystem", "source/samrai/FACPreconditioner.cc: computeFullCompositeResidual", "source/EllipticFACSolver.cc: solveSystem"]}
{"id": "C144", "title": "A block solve uses its cycles before giving up", "statement": "A block solve makes at least one and at most max_cycles cycles and reports failure only after max_cycles; on one level with an exact coarsest solver one cycle is enough; the recursive and the iterative cycle are the same algorithm.", "quantifier": "All numbers of levels and cycles, all operators, guesses and right-hand sides.", "why_tests_cant": "The boundary case of the stopping test and equality of the two cycles for any number of levels cannot be enumerated.", "anchors": ["source/samrai/FACPreconditioner.cc: solveSystem", "source/samrai/FACPreconditioner.cc: facCycle", "source/samrai/FACPreconditioner.cc: facCycle_Recursive"]}
{"id": "C145", "title": "The return code of the preconditioner tells whether the block system is solved", "statement": "CVSpgmrPrecondSolve returns 0 or 1; a block that is not preconditioned is copied from r to z; it returns 0 exactly when every preconditioned row of the block triangular system (phase; temperature and orientation with their derivative with respect to the phase; third phase; concentration) holds within delta for the z it returns; with a side other than left or right it copies r.", "quantifier": "All models, options, vectors r, gamma, delta, hierarchies and operators.", "why_tests_cant": "Concerns all combinations of blocks and couplings; only the Newton-Krylov convergence rate shows an error in a run.", "anchors": ["source/QuatIntegrator.cc: CVSpgmrPrecondSolve", "source/QuatIntegrator.cc: PhasePrecondSolve", "source/QuatIntegrator.cc: TemperaturePrecondSolve", "source/QuatIntegrator.cc: QuatPrecondSolve", "source/QuatSysSolver.cc: solveSystem"]}
{"id": "C146", "title": "The couplings of the preconditioner use the whole phase and the temperature", "statement": "With precond_has_dTdphi or precond_has_dquatdphi the rows of temperature and orientation contain the corrections of all order parameters; with precond_has_dPhidT the phase row contains the correction of the temperature.", "quantifier": "All numbers of order parameters, all vectors.", "why_tests_cant": "The preconditioner is never exact, so that a missing coupling only costs iterations in a test.", "anchors": ["source/QuatIntegrator.cc: PhasePrecondSolve", "source/QuatIntegrator.cc: TemperaturePrecondSolve", "source/DeltaTemperatureFreeEnergyStrategy.cc: applydPhidTBlock", "source/fortran/2d/quatrhs.m4: computedphidtemperaturedeltatemperature"]}
{"id": "C147", "title": "The preconditioner is a function of its arguments", "statement": "The vector z and the code that CVSpgmrPrecondSolve returns depend on r, gamma, delta and the Jacobian set up by CVSpgmrPrecondSet only: not on work arrays, on earlier calls or on the old content of z.  GMRES relies on it.", "quantifier": "All models, options, vectors and memories.", "why_tests_cant": "Dependence on old memory is a relation between two executions.", "anchors": ["source/QuatIntegrator.cc: CVSpgmrPrecondSolve", "source/QuatIntegrator.cc: PhasePrecondSolve", "source/QuatIntegrator.cc: applyTemperaturePreconditioner"]}
{"id": "C148", "title": "The Preconditioner section of the input selects the blocks", "statement": "enabled = FALSE switches the preconditioner off; otherwise a block that is evolved is preconditioned unless its entry is FALSE; leaving the section out, or leaving it empty, gives the same defaults; no admissible input stops the run in the callback.", "quantifier": "All models and all sections.", "why_tests_cant": "The number of combinations of options and models is large; the tests use a few.", "anchors": ["source/QuatIntegrator.cc: setupPreconditioners", "source/QuatIntegrator.cc: QuatPrecondSolve", "source/QuatIntegrator.cc: CVSpgmrPrecondSolve"]}
{"id": "C149", "title": "Composition fluxes in three dimensions do not prefer an axis", "statement": "Renaming the axes of the grid (cyclically, or exchanging x and y) and of every input field renames the fluxes in the same way: diffusion, Cahn-Hilliard, sintering and anti-trapping with two and with three phases.", "quantifier": "All patches, spacings, fields and parameters.", "why_tests_cant": "The three loops of each kernel are written out by hand; a test with a planar front checks one of them.", "anchors": ["source/fortran/3d/concentrationrhs.m4: concentrationflux", "source/fortran/3d/concentrationrhs.m4: add_cahnhilliarddoublewell_flux", "source/fortran/3d/concentrationrhs.m4: add_wang_sintering_flux", "source/fortran/3d/concentrationrhs.m4: addconcentrationfluxfromantitrapping", "source/fortran/3d/concentrationrhs.m4: addconcentrationfluxfromantitrapping3phases"]}
{"id": "C150", "title": "Three-dimensional composition fluxes reduce to the two-dimensional ones", "statement": "For fields that do not vary along z, every layer of the three-dimensional kernel has the fluxes along x and y of the two-dimensional kernel, and nothing is added along z.", "quantifier": "All patches, spacings, fields and parameters.", "why_tests_cant": "The kernels of the two dimensions are separate source files built into separate executables, so no test runs both.", "anchors": ["source/fortran/3d/concentrationrhs.m4", "source/fortran/2d/concentrationrhs.m4"]}
{"id": "C151", "title": "Cahn-Hilliard and sintering fluxes in three dimensions come from a chemical potential", "statement": "Each face gains its mobility times the difference, over the spacing, of one cell field mu, where mu is the derivative of the free energy with respect to the concentration minus kappa times the discrete Laplacian.", "quantifier": "All patches, concentrations, order parameters and coefficients.", "why_tests_cant": "The potential is never stored; it is scattered to the faces.", "anchors": ["source/fortran/3d/concentrationrhs.m4: add_cahnhilliarddoublewell_flux", "source/fortran/3d/concentrationrhs.m4: add_wang_sintering_flux"]}
{"id": "C152", "title": "The anti-trapping flux in three dimensions is bounded, rejects solute and vanishes at rest", "statement": "Through any face the flux is at most alpha times the difference of compositions times the rate; where a solid grows into a liquid of higher composition it is directed towards the solid's gradient, along each axis; when no phase changes it is zero; with one solid phase missing the three-phase kernel equals the two-phase kernel.", "quantifier": "All patches, fields, rates, alpha.", "why_tests_cant": "It depends on the direction of the interface; tests use planar fronts.", "anchors": ["source/fortran/3d/concentrationrhs.m4: addconcentrationfluxfromantitrapping", "source/fortran/3d/concentrationrhs.m4: addconcentrationfluxfromantitrapping3phases"]}
{"id": "C153", "title": "With several order parameters the anti-trapping flux in three dimensions follows the interface", "statement": "A planar front gets the same correction whichever axis it moves along; faces across which nothing varies get no flux; a field that does not vary along z gets the correction of the two-dimensional kernel.", "quantifier": "All patches, fields, numbers of order parameters.", "why_tests_cant": "Only a run in three dimensions with several grains and with trapping reaches the kernel.", "anchors": ["source/fortran/3d/concentrationrhs.m4: addconcentrationfluxfromantitrappingmultiorderp", "source/EBSCompositionRHSStrategy.cc: addFluxFromAntitrappingonPatch"]}
{"id": "C154", "title": "The spinodal flux in three dimensions is the gradient flux on every face", "statement": "After the call every face of the patch holds the diffusion coefficient times the concentration difference, less the coupling to eta, over the spacing; two patches that share a face compute the same flux through it.", "quantifier": "All patches and fields.", "why_tests_cant": "The strategy that calls it is not created by any input of the test suite.", "anchors": ["source/fortran/3d/concentrationrhs.m4: concentrationflux_spinodal"]}
{"id": "C155", "title": "The anisotropic phase flux in three dimensions is the derivative of the interface energy", "statement": "With an interface energy of cubic anisotropy, eps ((1 - 3 eps4) + 4 eps4 (n1^4 + n2^4 + n3^4)) with n the normal in the frame of the crystal, the flux through a face is the derivative of the energy density with respect to the slope normal to the face, whatever sign the orientations are stored with; without anisotropy it is the simple flux.", "quantifier": "All patches, spacings, phase fields, orientations, eps, eps4.", "why_tests_cant": "The derivative of a quartic form of a rotated unit vector; a test with a front along an axis does not see the second term.", "anchors": ["source/fortran/3d/quatrhs.m4: anisotropic_gradient_flux", "source/fortran/3d/quatrhs.m4: compute_dgamma"]}
{"id": "C156", "title": "The anisotropic phase flux does not depend on which symmetry equivalent of the orientation is stored", "statement": "Replacing every orientation by an equivalent one under the cubic symmetries the program uses (quatsymmrotate) changes no flux.", "quantifier": "All 48 symmetry quaternions, all fields.", "why_tests_cant": "The orientations are replaced by equivalents during a run (symmetry-aware gradients); tests store one representative.", "anchors": ["source/fortran/3d/quatrhs.m4: anisotropic_gradient_flux", "source/fortran/3d/quatrhs.m4: compute_dgamma", "source/fortran/quat.f: quatsymmrotate"]}
{"id": "C157", "title": "The phase equation in three dimensions does not prefer an axis", "statement": "Renaming the axes of the grid and turning the crystals with it renames the fluxes and the right-hand side in the same way.", "quantifier": "All patches, fields, kinds of flux and of driving force; cyclic renaming for the right-hand side, also the exchange of x and y for the anisotropic flux.", "why_tests_cant": "The loops over the three kinds of faces are written out by hand.", "anchors": ["source/fortran/3d/quatrhs.m4: anisotropic_gradient_flux", "source/fortran/3d/quatrhs.m4: gradient_flux", "source/fortran/3d/quatrhs.m4: computerhspbg", "source/PhaseRHSStrategyWithQ.cc: evaluateRHS"]}
{"id": "C158", "title": "A slab of one crystal has the anisotropic phase fluxes of the plane program", "statement": "For a phase field that does not vary along z and a crystal turned around z, the fluxes along x and y are those of the two-dimensional kernel for the same quaternion, and nothing flows along z.", "quantifier": "All patches, phase fields, angles, eps, eps4.", "why_tests_cant": "The two kernels use different formulas (an angle in two dimensions, a rotated normal in three) and are built into different executables.", "anchors": ["source/fortran/3d/quatrhs.m4: anisotropic_gradient_flux", "source/fortran/2d/quatrhs.m4: anisotropic_gradient_flux"]}
{"id": "C159", "title": "The phase and temperature equations in three dimensions reduce to the two-dimensional ones", "statement": "For fields that do not vary along z every layer of the three-dimensional right-hand sides equals the two-dimensional one: phase equation with every driving force, temperature equation, several order parameters, moving frame.", "quantifier": "All patches, fields, parameters, driving forces; simple flux.", "why_tests_cant": "The kernels of the two dimensions are separate source files built into separate executables, so no test runs both.", "anchors": ["source/fortran/3d/quatrhs.m4: computerhspbg", "source/fortran/3d/quatrhs.m4: computerhsdeltatemperature", "source/fortran/3d/quatrhs.m4: computerhstemp", "source/fortran/3d/quatrhs.m4: phaserhs_fenergy_multiorderp", "source/fortran/3d/quatrhs.m4: addvdphidx_upwind3", "source/fortran/2d/quatrhs.m4"]}
{"id": "C160", "title": "Every phase flux a user can choose works in three dimensions", "statement": "With each of the three choices of flux the evaluation of the phase equation returns; with the simple flux it is the mobility times diffusion minus double well plus driving force; the temperature equation is diffusion plus latent heat over heat capacity.", "quantifier": "All patches, fields and parameters, previous contents of the work arrays.", "why_tests_cant": "The choice is made at run time in the input file, the stop is in a kernel of one dimension only.", "anchors": ["source/fortran/3d/quatrhs.m4: compute_flux_isotropic", "source/fortran/3d/quatrhs.m4: computerhspbg", "source/fortran/3d/quatrhs.m4: computerhstemp", "source/fortran/3d/laplacian.m4", "source/PhaseFluxStrategyFactory.h: create"]}
{"id": "C161", "title": "The reported energies in three dimensions are integrals over the domain", "statement": "The total energy and each of its parts (interface, orientation, orientation gradient, double well, bulk) is the sum over all cells of all patches on all ranks of the energy density times the weight of the cell; the parts add up to the total and do not depend on how the domain is cut into patches and ranks; the map of the energy holds the densities.", "quantifier": "All numbers of ranks, patches, cells, all fields and parameters.", "why_tests_cant": "Regression tests compare one decomposition; a part that is reset for every patch looks right on one patch.", "anchors": ["source/fortran/3d/quatenergy.m4: quatenergy", "source/fortran/3d/quatenergy.m4: bulkenergy", "source/EnergyEvaluationStrategy.cc: evaluateEnergy", "source/TwoPhasesEnergyEvaluationStrategy.cc: evaluateEnergy"]}
{"id": "C162", "title": "The reported energies in three dimensions do not prefer an axis", "statement": "Renaming the axes of the grid and turning the crystals with it changes none of the energies; a crystal without gradients of orientation has the full orientation energy of the floor; every phase has its orientation energy, as in two dimensions.", "quantifier": "All patches, fields, parameters.", "why_tests_cant": "The six sides of a cell are written out by hand and one of them differs.", "anchors": ["source/fortran/3d/quatenergy.m4: quatenergy"]}
{"id": "C163", "title": "The anisotropic interface energy is that of a cubic crystal", "statement": "The reported interface energy is invariant under the symmetries of the crystal and the sign of the quaternion, lies between those of the softest and the hardest direction, and its derivatives with respect to the slopes are the fluxes of the phase equation.", "quantifier": "All patches, phases, orientations, eps, 0 < eps4 < 1/3.", "why_tests_cant": "An inequality over all directions and an identity between an energy kernel and a flux kernel in different files.", "anchors": ["source/fortran/3d/quatenergy.m4: interface_anisotropic_energy", "source/fortran/3d/quatenergy.m4: compute_n4", "source/fortran/3d/quatrhs.m4: anisotropic_gradient_flux"]}
{"id": "C164", "title": "A slab has the energies of the plane problem times its height", "statement": "If no field varies along z, each energy of the three-dimensional program is the height times the energy of the two-dimensional program.", "quantifier": "All patches, fields, parameters, numbers of layers.", "why_tests_cant": "The two programs are built from different source files; no test runs both.", "anchors": ["source/fortran/3d/quatenergy.m4: quatenergy", "source/fortran/2d/quatenergy.m4: quatenergy"]}
{"id": "C165", "title": "The phase equation in three dimensions lowers the reported energy", "statement": "Changing the phase in one cell changes the reported total energy at the rate of minus the right-hand side of the phase equation over the mobility, times the volume of the cell.", "quantifier": "All patches, phase fields, free energies, inner cells, mobilities, spacings.", "why_tests_cant": "A derivative of a sum over neighbouring cells compared with a kernel in another file; tests only look at trends of the energy.", "anchors": ["source/fortran/3d/quatenergy.m4: phi_interface_energy", "source/fortran/3d/quatrhs.m4: computerhspbg", "source/PhaseRHSStrategyWithQ.cc: evaluateRHS"]}
{"id": "C166", "title": "The driving force by undercooling lowers the reported energy", "statement": "With the free energies -+L/2 (Tm - T)/Tm of the undercooled melt, the right-hand side of the phase equation with the driving force by undercooling is minus the mobility times the derivative of the reported energy.", "quantifier": "All patches, temperatures, phase fields, inner cells, L, Tm.", "why_tests_cant": "The equation averages the temperature over neighbours; tests with uniform or linear temperature do not see it.", "anchors": ["source/fortran/3d/quatenergy.m4: temperature_energy", "source/DeltaTemperatureFreeEnergyStrategy.cc", "source/fortran/3d/quatrhs.m4: computerhsdeltatemperature"]}
{"id": "C167", "title": "The pair energies of several order parameters in three dimensions are integrals over the domain", "statement": "The energy of each pair of order parameters is the sum over the cells of all patches of the rank of the density times the weight, symmetric in the pair; the map is the sum over the pairs.", "quantifier": "All numbers of order parameters and patches, all fields.", "why_tests_cant": "The total is reset for every patch and the map for every pair; one patch and two order parameters hide both.", "anchors": ["source/fortran/3d/quatenergy.m4: phiphi_interfacialenergy", "source/MultiOrderPEnergyEvaluationStrategy.cc: evaluatePairEnergy"]}
{"id": "C168", "title": "Symmetry-aware orientation differences in three dimensions are the smallest ones between equivalent orientations", "statement": "In a three-dimensional run that knows the crystal symmetry, for every field of unit orientations with 2 or 4 components (and for angles) the search for rotations succeeds on every side of a patch; the difference stored on that side is the difference with a symmetry image of the neighbour, no image gives a shorter one, and it is zero exactly when the two neighbours are equivalent.", "quantifier": "All patches, all unit orientation fields including ghost cells, whatever the rotation indices held before.", "why_tests_cant": "Three hand-written loops with different bounds and neighbours, and 4 or 48 images for every pair of orientations.", "anchors": ["source/fortran/3d/quatrotation.m4: quat_symm_rotation", "source/fortran/3d/quatdiffs.m4: quatdiffs_symm", "source/computeQDiffs.cc"]}
{"id": "C169", "title": "The choice of representative orientation in a cell is not observable in three dimensions", "statement": "Two three-dimensional orientation fields that differ only by the symmetry image chosen in each cell have the same gradients up to that image, the same gradient moduli and face coefficients, and move in the same way, as long as no cell has two equally close images of a neighbour.", "quantifier": "All fields of unit orientations without ties, all choices of images cell by cell, all coefficients and mobilities.", "why_tests_cant": "The number of choices is exponential in the number of cells; in two dimensions the property holds.", "anchors": ["source/fortran/3d/quatgrad.m4: quatgrad_cell_symm, quatgrad_side_symm", "source/fortran/3d/quatfacops.m4: compute_face_coef3d", "source/QuatFACOps.cc: accumulateOperatorOnLevel", "source/QuatIntegrator.cc: evaluateQuatRHS"]}
{"id": "C170", "title": "The orientation equation and the projection keep orientations at length one in three dimensions", "statement": "The three-dimensional right-hand side for the orientation of a cell, with any option, is orthogonal to that orientation; projection adds a correction that restores length one in the same direction, makes an error orthogonal to the orientation by a multiple of it, and keeps an error that was orthogonal.", "quantifier": "All non-vanishing fields, all face coefficients, mobilities, rotations and errors.", "why_tests_cant": "Exact cancellation between a stencil of six faces and a projection, sampled by tests within a tolerance only.", "anchors": ["source/fortran/3d/quatfacops.m4: add_quat_proj_op3d, compute_lambda_flux3d, project3d", "source/fortran/3d/correctrhsquatforsymmetry.m4", "source/QuatFACOps.cc"]}
{"id": "C171", "title": "Crystallographically equivalent neighbours exert no force on each other in three dimensions", "statement": "In a symmetry-aware three-dimensional run a cell whose six neighbours are equivalent to it does not move; where no rotation is needed the right-hand side is that of a run without symmetry.", "quantifier": "All fields of unit orientations with 2 or 4 components, all coefficients and mobilities.", "why_tests_cant": "The default option fails only on fields with equivalent but different neighbours.", "anchors": ["source/QuatIntegrator.cc: evaluateQuatRHS, correctRhsForSymmetry", "source/fortran/3d/correctrhsquatforsymmetry.m4"]}
{"id": "C172", "title": "The orientation equation decreases the orientation energy in three dimensions", "statement": "With the face coefficients held fixed, the orientation energy of a three-dimensional patch, moved along the computed right-hand side, changes at the rate minus the sum over cells of |rhs|^2/mobility; with symmetry-aware fluxes the same holds for the energy of the symmetry-aware differences.", "quantifier": "All non-vanishing orientation fields, all face coefficients, positive mobilities, all patches.", "why_tests_cant": "A derivative of a sum over an arbitrary patch.", "anchors": ["source/QuatFACOps.cc: evaluateRHS", "source/fortran/3d/quatfacops.m4: compute_flux3d_from_gradq, add_quat_op3d, add_quat_proj_op3d"]}
{"id": "C173", "title": "The orientation gradient modulus in three dimensions is the norm of the gradient and sees every misoriented neighbour", "statement": "On an orientation field varying linearly in space both gradient moduli and the norm of the gradient on every face are the exact norm of the gradient; a modulus is zero only in a cell whose six neighbours have its orientation.", "quantifier": "All patches, spacings, numbers of components and orientation fields including ghost cells.", "why_tests_cant": "A statement about all fields and the zero set of a sum of squares.", "anchors": ["source/fortran/3d/quatgrad.m4: quatgrad_cell, quatgrad_side, quatgrad_modulus, quatgrad_modulus_from_sides_compact"]}
{"id": "C174", "title": "The orientation equation does not prefer an axis and agrees with the plane one", "statement": "Renaming the axes of a three-dimensional patch in cycle renames the right-hand side of the orientation and changes nothing else; a field that is uniform along z moves as the two-dimensional program moves its section, with the same options.", "quantifier": "All patches, fields, coefficients, mobilities, rotations and options that run.", "why_tests_cant": "The three directions and the two dimensions are written out by hand; regression tests compare no two of them.", "anchors": ["source/QuatFACOps.cc", "source/fortran/3d/quatfacops.m4", "source/fortran/2d/quatfacops.m4", "source/fortran/3d/correctrhsquatforsymmetry.m4"]}
{"id": "C175", "title": "Face coefficients of the orientation equation in three dimensions are diffusive and bounded by the gradient floor", "statement": "For phases in [0,1], non-negative temperatures and a positive floor, the coefficients of all faces exist for every documented option, have the sign of diffusion, are bounded by factor*T/floor plus epsilon_q^2, and the singular part of the flux stays bounded whatever the gradient; the orientation can be advanced with each stencil of the gradient.", "quantifier": "All fields, gradients and documented options.", "why_tests_cant": "The coefficient is singular at vanishing gradient; the isotropic stencil is not used by any three-dimensional test.", "anchors": ["source/fortran/3d/quatfacops.m4: compute_face_coef3d", "source/fortran/3d/quatgrad.m4: quatgrad_side_isotropic, quatgrad_side_symm_isotropic"]}
{"id": "C176", "title": "The diffusion coefficient of an alloy in three dimensions lies between those of its phases and equals the phase's own coefficient inside a phase", "statement": "In a three-dimensional run, where the phase fractions sum to one, the composition diffusion coefficient of a face is a weighted mean, with weights between 0 and 1 that sum to 1, of the coefficients of the phases at the temperature of the face; inside a phase it is that phase's coefficient. (False of the code for the liquid on y and z faces of the temperature dependent strategy with several order parameters, and for a phase B with several grains on z faces.)", "quantifier": "All fields, temperatures, coefficients, boxes, interpolation and average types that the kernels implement.", "why_tests_cant": "Bounds for every mixture of phases at every face; each of the three directions has its own loop.", "anchors": ["source/fortran/3d/concentrationdiffusion.m4", "source/ScalarCompositionDiffusionStrategy.cc", "source/TbasedCompositionDiffusionStrategy.cc", "source/KKSCompositionRHSStrategy.cc", "source/BeckermannCompositionRHSStrategy.cc"]}
{"id": "C177", "title": "Diffusion coefficients in three dimensions do not prefer an axis or an orientation of an axis", "statement": "Renaming the axes of three-dimensional fields in any way renames the faces of the diffusion coefficients and changes nothing else; mirrored fields have mirrored coefficients. (False of the code for the liquid with several order parameters and temperature dependence, for a phase B with several grains, and for the Beckermann kernel under mirroring.)", "quantifier": "All fields, boxes, strategies.", "why_tests_cant": "Symmetry for all fields; the three directions are written out by hand.", "anchors": ["source/fortran/3d/concentrationdiffusion.m4", "source/ScalarCompositionDiffusionStrategy.cc", "source/TbasedCompositionDiffusionStrategy.cc", "source/WangSinteringCompositionDiffusionStrategy.cc", "source/BeckermannCompositionRHSStrategy.cc"]}
{"id": "C178", "title": "Diffusion coefficients in three dimensions are local and agree with those of a two-dimensional run", "statement": "Two patches that share a face compute the same diffusion coefficient for it; a face that separates the same two cells in a three- and a two-dimensional run has the same coefficient in both, and the same inputs stop the run. (False of the code for temperature dependent interface diffusion on patch boundaries, and for the temperature dependent strategy on the faces named in C176.)", "quantifier": "All fields, pairs of boxes, previous contents, strategies, pairs of faces.", "why_tests_cant": "Every decomposition, and a comparison of two programs on all inputs.", "anchors": ["source/fortran/3d/concentrationdiffusion.m4", "source/fortran/2d/concentrationdiffusion.m4", "source/ScalarCompositionDiffusionStrategy.cc", "source/TbasedCompositionDiffusionStrategy.cc", "source/WangSinteringCompositionDiffusionStrategy.cc"]}
{"id": "C179", "title": "Interface diffusion in three dimensions acts where order parameters meet and does not depend on the numbering of grains", "statement": "In a three-dimensional run the enhanced diffusion of a face is the mean of what C92 describes over the two cells of the face (for the temperature dependent strategy: over those inside the patch); exchanging the numbers of two grains of one phase changes no coefficient. (The latter is false of the code for temperature dependent coefficients of a phase B on z faces.)", "quantifier": "All fields, numbers of grains, pairs of phases, coefficients.", "why_tests_cant": "All numbers and arrangements of grains in a cell.", "anchors": ["source/fortran/3d/concentrationdiffusion.m4", "source/ScalarCompositionDiffusionStrategy.cc", "source/TbasedCompositionDiffusionStrategy.cc", "source/WangSinteringCompositionDiffusionStrategy.cc"]}
{"id": "C180", "title": "The phase coupling coefficient of the KKS composition flux belongs to the two cells of its side", "statement": "For every side of a patch, in two and three dimensions and for any ghost widths of the phase and of the phase compositions, the coefficient of the phase gradient in the Kim-Kim-Suzuki composition flux is the diffusion coefficient of the side times the slope of the interpolation function at the averaged phase times the difference of the mean liquid and mean solid composition of the two cells next to the side. The loops read and write inside the arrays and change nothing else.", "quantifier": "All boxes, ghost widths, fields, diffusion coefficients, interpolation types p, l, h and average types a, h.", "why_tests_cant": "Pointer arithmetic with three strides per side direction; a wrong stride reads a plausible neighbouring cell, and tests compare a few runs with one ghost width.", "anchors": ["source/KKSCompositionRHSStrategy.cc setDiffCoeffForPhaseOnPatch"]}
{"id": "C181", "title": "At uniform phase compositions an interface drives no composition flux (KKS)", "statement": "When the composition is the interpolated mixture of a uniform liquid and a uniform solid composition, the composition flux is zero with linear interpolation, and with the other interpolations at most 5/2 D/h |c_a - c_l| |step of the phase|^3 with the arithmetic average. With linear interpolation the flux is the phase-weighted sum of the fluxes of the phases; where the phase is constant it is Fick's. (Exactly zero is false of the code for the polynomial interpolation; with the harmonic average the flux across a sharp step is the full Fickian one.)", "quantifier": "All phase fields in [0,1], compositions, diffusion coefficients, spacings, two and three dimensions.", "why_tests_cant": "Balance of two separately discretised terms (one in C++, one in Fortran) for every pair of phase values.", "anchors": ["source/KKSCompositionRHSStrategy.cc", "source/fortran/2d/concentrationrhs.m4 concentrationflux", "source/fortran/3d/concentrationrhs.m4 concentrationflux"]}
{"id": "C182", "title": "The phase coupling coefficient of the Beckermann composition flux belongs to the two cells of its side", "statement": "For every side of a patch the Beckermann coupling coefficient is D (1-k) c / (1 - h + k h), where k, c and h are taken from the two cells next to the side, and the run stops if a partition coefficient next to a side is outside [0,1]. (False of the code: y and z sides average k with the x neighbour; c is addressed with the ghost box of k, so two ghost cells for c give other cells; only x sides are checked.)", "quantifier": "All boxes, fields, partition coefficients, ghost widths, two and three dimensions.", "why_tests_cant": "With a uniform partition coefficient and one ghost cell, the usual test, the errors do not show.", "anchors": ["source/BeckermannCompositionRHSStrategy.cc setDiffusionCoeffForPhaseOnPatch", "source/QuatModel.cc:1489", "source/QuatModelParameters.h:305"]}
{"id": "C183", "title": "A partition equilibrium drives no composition flux (Beckermann)", "statement": "Where the composition is c_l (1 - h(phi) + k h(phi)) with a uniform liquid composition c_l and a uniform partition coefficient k, the Beckermann composition flux is zero. (True with linear interpolation and arithmetic average; false with the polynomial interpolation, whose slope is missing in the coupling, and with the harmonic average.)", "quantifier": "All phase fields in [0,1], c_l, k in (0,1], diffusion coefficients, boxes, two and three dimensions.", "why_tests_cant": "Exact balance of two terms for every pair of phase values and every k.", "anchors": ["source/BeckermannCompositionRHSStrategy.cc", "source/fortran/2d/concentrationrhs.m4 concentrationflux", "source/fortran/3d/concentrationrhs.m4 concentrationflux"]}
{"id": "C184", "title": "One red-black sweep relaxes every cell of a three-dimensional level once, and its colours fit across patches", "statement": "In one sweep of the three-dimensional smoother every cell of a patch is relaxed by exactly one of the two colours, the parity of its index sum, and its equation holds right after. A pass of one colour over a level solves the equations of all cells of that colour together, whatever the decomposition into patches, so the residual there is zero afterwards, and leaves the other cells alone. (False of the code on patches whose first cell has a negative index sum: some cells are relaxed by neither colour.)", "quantifier": "All patch boxes and levels of disjoint patches, coefficients with a nonzero diagonal, right-hand sides, fields.", "why_tests_cant": "Index arithmetic over all boxes and decompositions; the failing boxes do not occur in the usual inputs.", "anchors": ["source/fortran/3d/ellipticfacops.m4", "source/EllipticFACOps.cc"]}
{"id": "C185", "title": "The three-dimensional smoother stops changing a field exactly when its residual is zero", "statement": "A field is left alone by any number of smoothing sweeps with any tolerance if and only if the residual computed by the solver vanishes in every cell of the level; a field that one sweep leaves alone has no residual.", "quantifier": "All levels of disjoint patches with nonnegative corners, boundary rules, coefficients with a nonzero diagonal, fields.", "why_tests_cant": "An equivalence over all fields, levels and numbers of sweeps.", "anchors": ["source/EllipticFACOps.cc", "source/fortran/3d/ellipticfacops.m4"]}
{"id": "C186", "title": "The three-dimensional smoother converges to the solution of the preconditioner's equations", "statement": "For the signs of the preconditioner's problems and boundary rules that do not amplify, the equations of the coarsest level have exactly one solution, and smoothing without a tolerance converges to it from every initial guess, by a fixed factor below one per sweep in the maximum norm; on a refined level without flux correction too, to the solution for the spacing used in the fluxes. The phase block is such a problem for every phase field if 16 gamma M W < 1 (mobility M, well height W).", "quantifier": "All levels, coefficients, right-hand sides, boundary rules, initial guesses and numbers of sweeps.", "why_tests_cant": "Convergence in the limit for every problem.", "anchors": ["source/EllipticFACOps.cc", "source/PhaseFACOps.cc", "source/fortran/3d/ellipticfacops.m4"]}
{"id": "C187", "title": "In three dimensions the coarsest-level solve ends early only when its error is small", "statement": "When smoothing ends before the allowed number of sweeps because of its tolerance, the error is at most the tolerance divided by the smallest zeroth-order coefficient. (Holds on a level of one patch; false of the code for several patches, because the residual of the last patch replaces the others'.)", "quantifier": "All problems, tolerances, initial guesses and numbers of sweeps.", "why_tests_cant": "An error bound for all problems; the failure needs several patches per process.", "anchors": ["source/EllipticFACOps.cc", "source/fortran/3d/ellipticfacops.m4"]}
{"id": "C188", "title": "The three-dimensional elliptic operator is consistent with the differential equation on every level", "statement": "The residual of a quadratic field with a linear diffusion coefficient equals the residual of m div(D grad u) + C u = f at the cell centre. (Holds on the coarsest level; false of the code on refined levels, where the fluxes are computed with the coarsest level's spacing.)", "quantifier": "All quadratic fields in three variables, linear coefficients, spacings and cells.", "why_tests_cant": "An identity over all fields; the preconditioned iteration hides the error in runs.", "anchors": ["source/EllipticFACOps.cc", "source/fortran/3d/ellipticfacops.m4"]}
{"id": "C189", "title": "The three-dimensional flux correction at coarse-fine boundaries is exact for linear fields", "statement": "The fluxes through the sides of a coarse-fine boundary of any of the six orientations, after the Ewing correction, are D times the slope for every linear field. (False of the code on refined levels for lack of the level's spacing, and for the second and later components, corrected with the first component's diffusion coefficient.)", "quantifier": "All patches and boundary boxes aligned with coarse cells, refinement ratios (different along the axes), linear fields, diffusion coefficients.", "why_tests_cant": "An identity over all refinement patterns and fields.", "anchors": ["source/EllipticFACOps.cc", "source/fortran/3d/ellipticfacops.m4"]}
{"id": "C190", "title": "The direct solver of the coarsest level solves the discrete problem it is given", "statement": "The equations that the coarse solver hands to the HYPRE library, and the transform of its vector back to a field, are those of m div(D grad u) + C u = f with the user's Robin, Dirichlet, Neumann or periodic boundary conditions: a vector satisfies the former exactly when the returned field solves the latter, for a constant mobility and for a mobility field that does not change across the physical boundary. (False for mobility fields that differ between a boundary cell and the ghost cell beyond it: the boundary rule is then scaled by the root of their ratio.)", "quantifier": "All levels and decompositions into disjoint patches, spacings, coefficients, positive mobilities, right-hand sides, Robin coefficients along the boundary, periodic axes.", "why_tests_cant": "An equivalence of two linear systems over all geometries and coefficients; the scaled boundary rule is only a perturbation of a preconditioner and stays invisible in results.", "anchors": ["source/samrai/CellPoissonHypreSolver.cc", "source/fortran/2d/hyprepoisson.m4", "source/EllipticFACOps.cc"]}
{"id": "C191", "title": "Both coarse solvers mean the same field", "statement": "For the sign of the preconditioner's problems, and a mobility that is constant or does not change across the physical boundary, the system given to HYPRE has exactly one solution on the cells of the level, and the field made of it is the limit of the red-black smoother on that level from every start. The solve of several components reports success exactly when every one met the tolerance.", "quantifier": "All coarsest levels of disjoint patches, boundary rules that do not amplify, coefficients of the preconditioner's sign, right-hand sides, start fields, tolerances.", "why_tests_cant": "A limit over all starts compared with the solution set of another linear system.", "anchors": ["source/EllipticFACOps.cc", "source/samrai/CellPoissonHypreSolver.cc"]}
{"id": "C192", "title": "Boundary values given to the direct solver are the ones of its solution", "statement": "With inhomogeneous boundary conditions a u + b du/dn = g the field returned by the direct solver satisfies the problem with those values of g, for a constant mobility or one that is 1 beside the boundary. (False for other mobility fields, even uniform ones: g enters multiplied by the root of the mobility.)", "quantifier": "All levels, patches, Robin coefficients and values, mobilities, right-hand sides.", "why_tests_cant": "The path is used with homogeneous conditions by the preconditioner, so no run shows it.", "anchors": ["source/samrai/CellPoissonHypreSolver.cc"]}
{"id": "C193", "title": "The matrix entries arrive at HYPRE where it expects them", "statement": "The loop that packs off-diagonal and diagonal entries of a patch into one buffer puts each entry of each cell at the place HYPRE reads it, within the buffer, in two and three dimensions. (False of the code for levels one cell thick: a three-dimensional run writes behind the buffer, a level one cell wide along x maps all cells to one grid point, and a level one cell high and periodic across keeps couplings that should cancel.)", "quantifier": "All box sizes and entries.", "why_tests_cant": "Pointer arithmetic over three side arrays of different shapes, for every box size; thin levels are rare inputs.", "anchors": ["source/samrai/CellPoissonHypreSolver.cc"]}
{"id": "C194", "title": "A Cahn-Hilliard run in three dimensions keeps the mass and lowers the energy", "statement": "Along every solution of the equations that the composition right-hand side defines for the double well in three dimensions, the sum of the composition over the box stays constant and the total of well energy and gradient energy never grows, with periodic or mirrored boundaries on each axis. A field that does not vary along z has at every cell the rates of the two dimensional kernel. Nothing outside the box is written.", "quantifier": "All boxes, spacings, well parameters, gradient coefficients, mobilities that are not negative, boundary conditions on each axis, differentiable trajectories, pairs of times.", "why_tests_cant": "Statement about all trajectories of a differential equation; a test follows one run and cannot see a small violation in one axis.", "anchors": ["source/fortran/3d/concentrationrhs.m4", "source/CahnHilliardDoubleWell.cc", "source/CompositionRHSStrategyFactory.h", "source/QuatIntegrator.cc"]}
{"id": "C195", "title": "A sintering run in three dimensions keeps the mass and lowers the energy", "statement": "Along every solution of the coupled sintering equations in three dimensions (composition and any number of order parameters) the mass stays constant and the total free energy, with gradient coefficients beta for the composition and epsilon^3/2 for the order parameters, never grows, with mobilities and diffusion coefficients that vary in space and time. Each order parameter relaxes with its mobility times (epsilon^3/2 times the Laplacian minus the derivative of the free energy). Fields that do not vary along z have the rates of the two dimensional code.", "quantifier": "All boxes, numbers of order parameters from two, parameters, coefficient fields that are not negative, boundary conditions on each axis, differentiable trajectories, pairs of times.", "why_tests_cant": "All trajectories of a coupled system; the exchange between the two kernels only cancels if both use the derivative of one energy.", "anchors": ["source/fortran/3d/sintering.m4", "source/fortran/3d/concentrationrhs.m4", "source/SinteringUWangRHSStrategy.cc", "source/WangSinteringCompositionRHSStrategy.cc"]}
{"id": "C196", "title": "The multi-order-parameter rates in three dimensions are the gradient flow of the Moelans energy", "statement": "In every cell of the box each order parameter changes with the divergence of its flux minus the derivative of the multi-order energy with respect to it. (False: as in two dimensions the coupling uses the sum of squares minus phi instead of minus phi squared, so the rate is the gradient flow exactly where phi is 0 or 1; the exact rate is given, it agrees with the two dimensional kernel, and nothing else is written.)", "quantifier": "All boxes, numbers of order parameters, fields, fluxes, nonzero coefficients.", "why_tests_cant": "An identity between a kernel and the derivative of an energy at all states; runs with the wrong coupling still form interfaces.", "anchors": ["source/fortran/3d/multiorder.m4", "source/MultiOrderRHSStrategy.cc"]}
{"id": "C197", "title": "Rigid motion of grains in three dimensions keeps volume and mass", "statement": "Rigid motion subtracts velocity times central gradient from the rate of every order parameter but the last, and the sum of these terms from the rate of the composition, on the cells of the box and nowhere else. On a periodic box this changes neither the volume of any order parameter nor the mass. Fields that do not vary along z move as in two dimensions.", "quantifier": "All boxes, spacings, velocities, numbers of grains, fields.", "why_tests_cant": "Conservation for all fields and velocities and all axes at once.", "anchors": ["source/fortran/3d/rbmotion.m4", "source/RigidBodyMotionRHS.cc", "source/RigidBodyMotionConcRHS.cc"]}
{"id": "C198", "title": "The diffusion coefficients of a patch are those of the mean state of each side", "statement": "After setDiffusion of the strategy with mobilities, every entry of the two diffusion matrices on every side of a patch is the matrix of the liquid and of the solid at the mean temperature and the mean compositions of the two cells of the side, weighted with one minus the interpolated phase of the side and with the phase. The result does not depend on the ghost widths with which temperature, phase, compositions and coefficients are stored, on the previous content of the work arrays or on memory outside the arrays; entries of other sides keep their value.", "quantifier": "for all boxes in two and three dimensions, ghost widths of all five data, numbers of species, mobility functions, interpolation and averaging functions, data with compositions in tolerance", "why_tests_cant": "the C++ loops compute flat offsets from the ghost boxes of five different data by hand; a test with equal ghost widths or a cubic patch cannot see a stride taken from the wrong box", "anchors": ["source/MobilityCompositionDiffusionStrategy.cc:197-404", "source/MobilityCompositionDiffusionStrategy.cc:408-611"]}
{"id": "C199", "title": "A composition out of bounds stops the run when the coefficients are computed", "statement": "With assertions compiled in, computing the coefficients of the phases stops the run if a composition it reads is outside [-0.05, 1.05]. This is false: only the liquid compositions of cells beside x sides are checked; the run stops exactly if one of those is out of tolerance, and a composition that only a y side reads enters the coefficients unnoticed.", "quantifier": "for all boxes, ghost widths, numbers of species, compositions and temperatures", "why_tests_cant": "a test with a bad composition inside the patch is caught by the x loop; only ghost cells above or below the patch escape", "anchors": ["source/MobilityCompositionDiffusionStrategy.cc:263-404"]}
{"id": "C200", "title": "The spinodal flux is the one of its model", "statement": "The coefficient the spinodal strategy stores on a side is the diffusion coefficient at the mean temperature and composition of the two cells, and the flux is coefficient times the composition gradient minus kappa times the difference of the two phase compositions times the gradient of the order parameter eta. False for eta: the constructor stores the index of the phase in place of that of eta, so that the flux is the one with the gradient of the phase and does not depend on eta.", "quantifier": "for all indices, boxes, ghost widths, numbers of species, data, in two and three dimensions for the coefficients, two for the flux", "why_tests_cant": "a test where phase and eta hold the same data, or with kappa zero, gives the right flux", "anchors": ["source/SpinodalCompositionRHSStrategy.cc:21-56", "source/SpinodalCompositionRHSStrategy.cc:60-125"]}
{"id": "C201", "title": "Coarsening orientations in three dimensions gives the direction of the mean", "statement": "QuatWeightedAverage without symmetry in three dimensions gives every coarse cell of the box the unit vector along the arithmetic mean of the fine cells it covers (the mean itself for an angle), zero if the mean has practically no length; a coarse cell inside a grain with one orientation keeps it exactly; no cell outside the box is written and no other fine cell is read.", "quantifier": "for all boxes including negative indices, refinement ratios, spacings, orientation fields of one, two and four components", "why_tests_cant": "a test with a uniform grain or a cubic ratio cannot see an index mixed up between axes or a weight that is wrong for unequal ratios", "anchors": ["source/fortran/3d/quatcoarsen.m4:11-126", "source/QuatWeightedAverage.cc:92-171"]}
{"id": "C202", "title": "Symmetry aware transfer of orientations fills the cells the schedule asks for", "statement": "With symmetry aware operators, coarsening fills the box and refinement fills every cell of every box of the overlap. False: coarsening in three dimensions stops the run for every ratio that coarsens, as in two dimensions; refinement cuts the last layer off every box and stops the run on what remains, so that it either stops, if some box is two cells wide along every axis, or returns with nothing written.", "quantifier": "for all overlaps, ratios, spacings and fields, two and three dimensions", "why_tests_cant": "the failing branch is taken only with AMR and symmetry aware orientations; a test whose overlap is one layer of ghost cells passes without the data being filled", "anchors": ["source/QuatLinearRefine.cc:85-174", "source/fortran/3d/quatlinrefine.m4:11-160", "source/fortran/3d/quatcoarsen.m4:75-110"]}
{"id": "C203", "title": "In three dimensions the Gaussian temperature is the profile around the nearest image of the moving center", "statement": "In three dimensions the field of a Gaussian temperature at time t is base + (peak - base) exp(-d^2 / 2 sigma^2), where d is the distance to the nearest periodic image of the center at time t and the peak follows its ramp. The field lies between base and peak, does not depend on the decomposition into patches, nothing outside of the patch and its ghost layers is written, and after any sequence of updates it is the profile of the last time.", "quantifier": "All parameters, domains, periodic directions, times of either sign, update sequences, patches within half a period of the domain.", "why_tests_cant": "The distance to infinitely many images and the sequence of updates are unbounded.", "anchors": ["source/GaussianTemperatureStrategy.cc", "source/fortran/3d/temperature.m4"]}
{"id": "C204", "title": "In three dimensions a frozen temperature gradient is at rest in the laboratory while the frame moves", "statement": "In three dimensions the temperature of a frozen gradient is affine, and as a function of laboratory position (frame position plus distance travelled along x) it does not depend on how often and how the frame velocity was changed. With a temperature history it is the tangent of the table at the frame position, constant across y and z, and reproduces bilinear tables exactly.", "quantifier": "All gradients, rates, tables, sequences of velocity changes, times, patches.", "why_tests_cant": "Sequences of velocity changes are unbounded.", "anchors": ["source/GradientTemperatureStrategy.cc", "source/GradientTemperatureStrategy.h", "source/fortran/3d/temperature.m4"]}
{"id": "C205", "title": "In three dimensions heat capacities mix and steady heat conduction solves the heat equation with the configured source", "statement": "In three dimensions the heat capacity of a cell is the mixture of the capacities of the species at the temperature of the cell and lies between them for compositions in the simplex. A temperature solves the linear system that is handed to the solver exactly if heat capacity times diffusivity times the discrete Laplacian plus the configured source (mixture of the sources of the compositions, or Gaussian in space and time, in the units of the input) vanish in every cell.", "quantifier": "All species and powers, compositions, temperatures, sources, diffusivities, times, centers, periodic directions, patches.", "why_tests_cant": "Equivalence for all fields.", "anchors": ["source/NKRHeatCapacityStrategy.cc", "source/SteadyStateTemperatureCompositionSource.cc", "source/SteadyStateTemperatureGaussianSource.cc", "source/fortran/3d/temperature.m4"]}
{"id": "C206", "title": "Printed volume fractions", "statement": "The scalar diagnostics print one volume fraction per order parameter, in order, each the mean of that order parameter over the domain; fractions lie in [0,1] and add up to one when the order parameters of every cell do. With a single order parameter the printed solid fraction is its mean, however slightly it undershoots zero.", "quantifier": "all hierarchies of cells, all control volumes that add up to the volume of the domain, all numbers of order parameters, all values", "why_tests_cant": "A test compares a few printed numbers of one run; the absolute values hidden in the L1 norm only matter where the order parameter undershoots, and by little.", "anchors": ["source/QuatModel.cc:2601-2632", "source/QuatModel.cc:5153-5178", "source/toolsSAMRAI.cc:48-71"]}
{"id": "C207", "title": "Printed compositions and coring factor", "statement": "For each composition, in order, the diagnostics print the integral over the domain and the largest value in any cell, and for a run with one order parameter the coring factor Cex.", "quantifier": "all hierarchies of cells, all numbers of compositions, all numbers of order parameters, all values", "why_tests_cant": "A missing line is not a wrong number: a test that greps for the lines it knows does not notice that Cex is never printed for any admissible number of order parameters.", "anchors": ["source/QuatModel.cc:2644-2670", "source/QuatModel.cc:5105-5149"]}
{"id": "C208", "title": "Printed density", "statement": "When a subdomain for diagnostics is given, the printed density is one minus the mean over that subdomain of the order parameter of the voids, the last one, and lies in [0,1]; every choice of norderp and norderp_A that is accepted on input gives a density.", "quantifier": "all hierarchies of cells, all control volumes of the subdomain, all norderp and norderp_A, with and without three phases", "why_tests_cant": "A test uses one valid splitting into grains of A, grains of B and voids; the splittings accepted on input for which another phase or no phase is read are many.", "anchors": ["source/QuatModel.cc:2673-2676", "source/QuatModel.cc:2707-2729", "source/QuatModelParameters.cc:811-829", "source/QuatModelParameters.h:82-84"]}
{"id": "C209", "title": "Thermal energy", "statement": "The thermal energy is the integral of cp T - L phi; it stays the same when every cell solidifies or melts without exchange of heat, and does not depend on the unit of a rescaled temperature.", "quantifier": "all hierarchies of cells, all control volumes, all latent heats, all changes of the order parameter and of the temperature, all nonzero factors", "why_tests_cant": "Runs only conserve energy up to solver tolerances, so a wrong sign or factor of a small latent heat passes a tolerance; the theorem is exact for all fields.", "anchors": ["source/QuatModel.cc:5372-5396"]}
{"id": "C210", "title": "Plotted diffusion coefficients", "statement": "With extra visualization output, exactly the diffusion coefficients of the chosen composition strategy are plotted: liquid, A and, if there is one, B for the EBS strategy, otherwise the coefficient of the first composition. Every cell of every patch shows the mean of the values on its sides, which lies between them and is exact for a coefficient affine in the position; nothing else changes, and nothing is written without extra output.", "quantifier": "all lists of patches, all boxes, all side data in two and three dimensions, all strategies", "why_tests_cant": "Plots are looked at, not compared; a shifted side or a missing sixth looks like a slightly different coefficient.", "anchors": ["source/QuatModel.cc:5401-5422", "source/toolsSAMRAI.cc:112-154", "source/fortran/2d/side2cell.m4", "source/fortran/3d/side2cell.m4"]}
