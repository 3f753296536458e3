{
 "claims": [
  {
   "property": "C01",
   "status": "proved",
   "theorems": [
    "C01_yes_separated",
    "C01_yes_at_most_once"
   ],
   "note": "Both forms proved for every history of initial/step/final queries. Times are exact reals."
  },
  {
   "property": "C02",
   "status": "proved",
   "theorems": [
    "C02_time_step",
    "C02_time_step_defined",
    "C02_time_run",
    "C02_no_multiple_skipped"
   ],
   "note": "Per query, per run, no multiple skipped; defined-ness (no int overflow in the casts) under t/interval < 2^31. Times are exact reals."
  },
  {
   "property": "C03",
   "status": "proved",
   "theorems": [
    "C03_cycle_step",
    "C03_cycle_step_defined",
    "C03_inactive_never"
   ],
   "note": "Exact condition for step-based schedules without include_first; inactive schedules never answer yes in any history."
  },
  {
   "property": "C04",
   "status": "proved",
   "theorems": [
    "C04_terminates",
    "C04_steps_and_limits",
    "C04_step_count",
    "C04_files"
   ],
   "note": "Termination, step accounting, limits, final files, no duplicate plot file. Integrator step sizes are an arbitrary sequence."
  },
  {
   "property": "C05",
   "status": "partial",
   "theorems": [
    "C05_initial_restart_refuted",
    "C05_unrequested_restart_refuted",
    "C05_initial_restart_iff_regrid"
   ],
   "note": "REFUTED: the initial restart file is guarded by the Regrid schedule (PFModel.cc:453); witnesses both ways and the exact condition proved."
  },
  {
   "property": "C06",
   "status": "partial",
   "theorems": [
    "C06_restart_transparent_partial",
    "C06_restart_roundtrip",
    "C06_restart_time_schedule_refuted",
    "C06_restart_regrid_refuted"
   ],
   "note": "Proved for step-based Restart schedules without include_first_step (whole remaining trace equal at every interruption point); REFUTED for time-based Restart schedules and for the regrid of the step that wrote the file."
  },
  {
   "property": "C07",
   "status": "partial",
   "theorems": [
    "C07_clamped_types",
    "C07_half_clamped_types",
    "C07_overshoot_refuted",
    "C07_s_negative_refuted"
   ],
   "note": "Types p,h,l,m on all reals; q,w,3 up to phi=1; REFUTED: q exceeds 1 and w is negative for large phi, s is not zero for phi<0."
  },
  {
   "property": "C08",
   "status": "partial",
   "theorems": [
    "C08_first_derivatives",
    "C08_linear_inside_partial",
    "C08_linear_outside_refuted",
    "C08_logcosh_partial",
    "C08_logcosh_negative_refuted",
    "C08_second_p",
    "C08_second_inside_partial",
    "C08_second_outside_refuted",
    "C08_second_missing_refuted",
    "C08_wells"
   ],
   "note": "p,h,m,q,w,3,c first derivatives and p second derivative and wells everywhere; l, s and second derivatives of h,w REFUTED outside the physical range (proved inside); m,3,s have no second derivative (program stops)."
  },
  {
   "property": "C09",
   "status": "proved",
   "theorems": [
    "C09_double_well",
    "C09_single_well",
    "C09_minima_stationary"
   ],
   "note": "Both well types."
  },
  {
   "property": "C10",
   "status": "proved",
   "theorems": [
    "C10_arithmetic",
    "C10_harmonic",
    "C10_symmetric",
    "C10_reproduces"
   ],
   "note": "Harmonic average: lower bound min only above the 1e-16 cut-off (exactly min-1e-16 below it)."
  },
  {
   "property": "C11",
   "status": "proved",
   "theorems": [
    "C11_storage_2d",
    "C11_storage_2d_injective",
    "C11_storage_3d",
    "C11_storage_3d_injective",
    "C11_voigt_2d",
    "C11_voigt_2d_bijective",
    "C11_voigt_3d",
    "C11_voigt_3d_bijective"
   ],
   "note": "2D and 3D, symmetric, in range, injective / bijective."
  },
  {
   "property": "C12",
   "status": "proved",
   "theorems": [
    "C12_hamilton_product",
    "C12_associative",
    "C12_table",
    "C12_closed",
    "C12_inverses"
   ],
   "note": "All 48 entries, closure and inverses; quatmult4 is associative, bilinear, with Hamilton relations."
  },
  {
   "property": "C13",
   "status": "proved",
   "theorems": [
    "C13_search_quaternion",
    "C13_search_quaternion_any",
    "C13_search_complex",
    "C13_search_angle",
    "C13_angle_eighth_turn"
   ],
   "note": "Minimality over all equivalents for every start index; depth 4, 2 and 1."
  },
  {
   "property": "C14",
   "status": "proved",
   "theorems": [
    "C14_roundtrip_quaternion",
    "C14_roundtrip_complex",
    "C14_roundtrip_angle",
    "C14_isometry",
    "C14_rejects"
   ],
   "note": "Depth 4, 2, 1; rejected indices characterised exactly."
  },
  {
   "property": "C15",
   "status": "proved",
   "theorems": [
    "C15_proper",
    "C15_homomorphism",
    "C15_sign_and_conjugate",
    "C15_complex"
   ],
   "note": "Quaternion and complex versions."
  },
  {
   "property": "C16",
   "status": "partial",
   "theorems": [
    "C16_derivative_partial",
    "C16_entry_322",
    "C16_entry_313",
    "C16_derivative_refuted",
    "C16_complex_derivative"
   ],
   "note": "REFUTED: 34 of 36 entries right, entries (3,2,2) and (3,1,3) are right only if qa=qb resp. qa=0. Complex version proved."
  },
  {
   "property": "C17",
   "status": "proved",
   "theorems": [
    "C17_unit",
    "C17_zero",
    "C17_idempotent",
    "C17_angle"
   ],
   "note": "Above and below the 1e-15 threshold."
  },
  {
   "property": "C18",
   "status": "partial",
   "theorems": [
    "C18_coarsening_stops_refuted",
    "C18_refinement_stops_refuted"
   ],
   "note": "REFUTED: iq=0 is passed to quatsymmrotate, which stops; no symmetry-aware transfer ever completes (2D)."
  },
  {
   "property": "C19",
   "status": "proved",
   "theorems": [
    "C19_mean_quaternion",
    "C19_mean_complex",
    "C19_mean_angle",
    "C19_uniform",
    "C19_local"
   ],
   "note": "2D, exact mesh ratio between levels."
  },
  {
   "property": "C20",
   "status": "proved",
   "theorems": [
    "C20_rhs_values",
    "C20_mass_balance",
    "C20_mass_conserved",
    "C20_periodic_run",
    "C20_flux_values",
    "C20_mass_balance_3d",
    "C20_outside_3d"
   ],
   "note": "2D with fluxes from concentrationflux (two-phase) and any flux field; 3D right-hand side for any flux field."
  },
  {
   "property": "C21",
   "status": "partial",
   "theorems": [
    "C21_rhs_sum_zero",
    "C21_rhs_gradient_flow",
    "C21_rhs_gradient_flow_wells",
    "C21_rhs_3d",
    "C21_projection",
    "C21_projection_3d",
    "C21_level0_projected_partial",
    "C21_finer_levels_refuted"
   ],
   "note": "Right-hand side: 2D complete (kernel, driving force, mobility), 3D kernel. Projection 2D and 3D, any depth. REFUTED for hierarchies: only level 0 is projected."
  },
  {
   "property": "C22",
   "status": "partial",
   "theorems": [
    "C22_wang_value_2d",
    "C22_wang_value_3d",
    "C22_newton_2d",
    "C22_newton_3d",
    "C22_total_force_2d",
    "C22_total_force_3d",
    "C22_phiphi_value_2d",
    "C22_phiphi_newton_refuted"
   ],
   "note": "Wang forces: proved in 2D and 3D. phi-phi forces: REFUTED (not antisymmetric on the grid, even on a periodic box)."
  },
  {
   "property": "C23",
   "status": "partial",
   "theorems": [
    "C23_partition",
    "C23_pure_phases",
    "C23_zero_coefficient_refuted"
   ],
   "note": "Refuted at k=0, which the code accepts: division by zero where the interpolation is 1."
  },
  {
   "property": "C24",
   "status": "partial",
   "theorems": [
    "C24_at_rest",
    "C24_below_one",
    "C24_above_one",
    "C24_monotone",
    "C24_limit",
    "C24_consumer_accepts",
    "C24_consumer_refuted"
   ],
   "note": "Refuted for equilibrium coefficients above one: the consumer asserts k<=1 although the coefficient is then in (1,ke]."
  },
  {
   "property": "C25",
   "status": "proved",
   "theorems": [
    "C25_partition_of_unity",
    "C25_symmetric_01",
    "C25_symmetric_12",
    "C25_two_phases",
    "C25_mobility_between",
    "C25_mobility_two_phases",
    "C25_zeta"
   ],
   "note": "Proved in exact arithmetic for all phase fractions."
  },
  {
   "property": "C26",
   "status": "partial",
   "theorems": [
    "C26_rhs_value_partial",
    "C26_gradient_flow_refuted"
   ],
   "note": "REFUTED: the coupling term uses (sum of squares) - phi instead of - phi^2; right exactly where phi is 0 or 1 (2D kernel; the 3D kernel has the same line)."
  },
  {
   "property": "C27",
   "status": "proved",
   "theorems": [
    "C27_second_order_x",
    "C27_second_order_y",
    "C27_isotropic_x",
    "C27_isotropic_y",
    "C27_isotropic3_x",
    "C27_isotropic3_y",
    "C27_isotropic3_z",
    "C27_fourth_order_x",
    "C27_fourth_order_y",
    "C27_fourth_boundary_x",
    "C27_fourth_boundary_y",
    "C27_only_patch_faces",
    "C27_composition_flux_x",
    "C27_composition_flux_y",
    "C27_composition_flux_fourth_x",
    "C27_composition_flux_fourth_y",
    "C27_composition_flux_boundary_x",
    "C27_composition_flux_boundary_y",
    "C27_laplacian",
    "C27_laplacian_only"
   ],
   "note": "2D schemes and the 3D isotropic one; the 3D second- and fourth-order kernels have the same form and are not modelled separately."
  },
  {
   "property": "C28",
   "status": "proved",
   "theorems": [
    "C28_cell_weight",
    "C28_integral",
    "C28_volume",
    "C28_solver_levels",
    "C28_solver_default",
    "C28_kept_by_diagnostics"
   ],
   "note": "Three-dimensional index space (2D = one cell thick); nesting, alignment and disjointness of boxes are what SAMRAI guarantees."
  },
  {
   "property": "C29",
   "status": "partial",
   "theorems": [
    "C29_cell_weight_partial",
    "C29_overcount",
    "C29_refuted"
   ],
   "note": "False: zeroOutLowerLevelWeights always zeroes d_weight_id, so covered coarse cells keep their diagnostics weight. Proved: what the weights are. (They are also computed only once, before any regridding.)"
  },
  {
   "property": "C30",
   "status": "partial",
   "theorems": [
    "C30_sums_partial",
    "C30_decomposition",
    "C30_map",
    "C30_defined",
    "C30_last_patch",
    "C30_one_patch_per_rank_partial",
    "C30_well_free_refuted",
    "C30_pairs_last_patch",
    "C30_pairs_symmetric",
    "C30_pairs_refuted",
    "C30_pairs_map",
    "C30_pairs_map_refuted"
   ],
   "note": "2D kernels. Total, phase, orientation and q-interface energies proved to be weighted sums of densities independent of the decomposition. Refuted for the well, free and pair energies: quatenergy.m4/bulkenergy/phiphi_interfacialenergy reset these accumulators to zero on every patch, so only the last patch of each rank is counted; the pair energy map holds only the last pair."
  },
  {
   "property": "C31",
   "status": "proved",
   "theorems": [
    "C31_smallest",
    "C31_local"
   ],
   "note": "Proved for all integer fields and all positive refinement ratios."
  },
  {
   "property": "C32",
   "status": "partial",
   "theorems": [
    "C32_one_level_partial",
    "C32_two_levels_refuted",
    "C32_levels_partial"
   ],
   "note": "Proved for one level (2D/3D, any patch tiling, periodic or not, any sweep limit) once the loop stops by itself. Refuted with two levels: labels collide across levels (see C34), merging distant grains."
  },
  {
   "property": "C33",
   "status": "partial",
   "theorems": [
    "C33_enough_sweeps_partial",
    "C33_limit_refuted"
   ],
   "note": "Proved that some number of sweeps is always enough on one level; refuted for the built-in limit (a winding grain on 10 x 20 cells is split in two)."
  },
  {
   "property": "C34",
   "status": "partial",
   "theorems": [
    "C34_level_partial",
    "C34_levels_refuted",
    "C34_overflow_refuted"
   ],
   "note": "Labels proved different within each level. Refuted across levels (offset is the number of domain boxes instead of cells). Also refuted: memory safety, each call writes level_stride[nlevels*NDIM]."
  },
  {
   "property": "C35",
   "status": "partial",
   "theorems": [
    "C35_tags_2d_partial",
    "C35_only_patch",
    "C35_tags_3d_partial",
    "C35_monotone_2d",
    "C35_monotone_3d",
    "C35_other_order_parameters_refuted"
   ],
   "note": "2D and 3D kernels and driver, orientation differences without symmetry rotation. Refuted for models with several order parameters: only the first component is looked at."
  },
  {
   "property": "C36",
   "status": "proved",
   "theorems": [
    "C36_storage",
    "C36_amplitude"
   ],
   "note": "The assert in the code compares the ghost widths in the first direction only; C36_ex_narrow shows an out-of-bounds read when it holds but the second direction is narrower."
  },
  {
   "property": "C37",
   "status": "proved",
   "theorems": [
    "C37_interpolation",
    "C37_files",
    "C37_stop_iff",
    "C37_forward",
    "C37_rescale"
   ],
   "note": "The static search slots are part of the state; histories are calls on one object (the code creates several objects from the same file, which have the same tables)."
  },
  {
   "property": "C38",
   "status": "partial",
   "theorems": [
    "C38_inside_partial",
    "C38_end_refuted",
    "C38_single_refuted",
    "C38_shared_refuted"
   ],
   "note": "Partial: fill times at or after the last tabulated time, single-entry tables, and objects with tables of different lengths sharing the static slots read outside the table."
  },
  {
   "property": "C39",
   "status": "partial",
   "theorems": [
    "C39_same_times_partial",
    "C39_refuted"
   ],
   "note": "Partial: operator= does not copy d_t_map."
  },
  {
   "property": "C40",
   "status": "partial",
   "theorems": [
    "C40_bilinear_partial",
    "C40_bounds",
    "C40_exact",
    "C40_points_partial",
    "C40_file_partial",
    "C40_early",
    "C40_outside",
    "C40_last_time_refuted",
    "C40_first_position_refuted"
   ],
   "note": "Partial: the last tabulated time is rejected and the first tabulated position reads outside the table (unsigned wrap-around)."
  },
  {
   "property": "C41",
   "status": "proved",
   "theorems": [
    "C41_first",
    "C41_bound",
    "C41_step"
   ],
   "note": "For one object per process (as the code creates); the first-call flag is function-static, so a second object would read members never set (C41_ex_second)."
  },
  {
   "property": "C42",
   "status": "proved",
   "theorems": [
    "C42_partition",
    "C42_pure",
    "C42_derivatives",
    "C42_triple_well",
    "C42_gradient_unique",
    "C42_outside"
   ],
   "note": "Both families; closed simplex."
  },
  {
   "property": "C43",
   "status": "proved",
   "theorems": [
    "C43_sums",
    "C43_total",
    "C43_rank_order",
    "C43_gather",
    "C43_gather_size"
   ],
   "note": "Proved for all numbers of ranks and all per-rank lists; MPI_Allgatherv is modelled by its meaning: the data of a rank are put at its displacement."
  },
  {
   "property": "C44",
   "status": "proved",
   "theorems": [
    "C44_centred",
    "C44_upwind",
    "C44_upwind_boundary",
    "C44_only_patch",
    "C44_at_rest"
   ],
   "note": "2D kernels; the 3D ones have the same form."
  },
  {
   "property": "C45",
   "status": "partial",
   "theorems": [
    "C45_directory_partial",
    "C45_cwd_partial",
    "C45_root_refuted",
    "C45_given"
   ],
   "note": "Partial: for a file directly in the root directory the name keeps its slash."
  },
  {
   "property": "C46",
   "status": "partial",
   "theorems": [
    "C46_max_delta_input",
    "C46_max_delta_restart_partial",
    "C46_max_delta_both_refuted"
   ],
   "note": "Proved for new runs and for restarts without an absolute limit in the deck; REFUTED when both limits are given on restart."
  },
  {
   "property": "C47",
   "status": "partial",
   "theorems": [
    "C47_arithmetic_derivative",
    "C47_harmonic_derivative_partial",
    "C47_harmonic_derivative_refuted"
   ],
   "note": "Arithmetic proved; harmonic REFUTED (ratio inverted): right exactly when both cells are equal."
  },
  {
   "property": "C48",
   "status": "proved",
   "theorems": [
    "C48_ratio",
    "C48_complement_ratio",
    "C48_same_type"
   ],
   "note": "Every real phi."
  },
  {
   "property": "C49",
   "status": "partial",
   "theorems": [
    "C49_bounded",
    "C49_sign_refuted"
   ],
   "note": "Bound and inverse proved; sign REFUTED for small negative arguments."
  },
  {
   "property": "C50",
   "status": "proved",
   "theorems": [
    "C50_projected_gradient",
    "C50_gradient_exists",
    "C50_sum_zero"
   ],
   "note": "Every triple."
  },
  {
   "property": "C51",
   "status": "proved",
   "theorems": [
    "C51_inverse_norm_bounds",
    "C51_inverse_norm_exact"
   ],
   "note": "Floor types m, t, s."
  },
  {
   "property": "C52",
   "status": "proved",
   "theorems": [
    "C52_cubic_invariance",
    "C52_total_symmetry"
   ],
   "note": "All 48 equivalents."
  },
  {
   "property": "C53",
   "status": "proved",
   "theorems": [
    "C53_position",
    "C53_affine_exact"
   ],
   "note": "One direction of 2D quatlinrefine; mesh sizes in exact ratio."
  },
  {
   "property": "C54",
   "status": "proved",
   "theorems": [
    "C54_flux_is_potential_gradient",
    "C54_uniform_no_flux"
   ],
   "note": "2D kernel."
  },
  {
   "property": "C55",
   "status": "proved",
   "theorems": [
    "C55_flux_from_energy",
    "C55_rhs_from_energy"
   ],
   "note": "2D kernels, any number of particles >= 1."
  },
  {
   "property": "C56",
   "status": "partial",
   "theorems": [
    "C56_bounded",
    "C56_direction",
    "C56_stationary",
    "C56_multiorder_matches_two_phase",
    "C56_three_phase_reduces_refuted"
   ],
   "note": "2D kernels. REFUTED for three phases: with the third phase absent the three-phase kernel adds exactly the opposite of the two-phase correction."
  },
  {
   "property": "C57",
   "status": "partial",
   "theorems": [
    "C57_phiphi_3d_misplaced_refuted",
    "C57_phiphi_3d_weight_refuted"
   ],
   "note": "REFUTED: stored with the 2D offset formula (right only against the first grain) and not weighted. Exact stored values given for two grains."
  },
  {
   "property": "C58",
   "status": "proved",
   "theorems": [
    "C58_rate",
    "C58_volume_kept",
    "C58_momentum_2d",
    "C58_momentum_3d"
   ],
   "note": "2D motion kernel; momentum for Wang forces in 2D and 3D."
  },
  {
   "property": "C59",
   "status": "proved",
   "theorems": [
    "C59_built_cycle",
    "C59_built_time",
    "C59_accepted_types",
    "C59_deck_run",
    "C59_deck_restart"
   ],
   "note": "Decks as parsed by SAMRAI; a default interval is a non-negative integer."
  },
  {
   "property": "C60",
   "status": "partial",
   "theorems": [
    "C60_folchplapp_absent_stays_partial",
    "C60_moelans_refuted"
   ],
   "note": "Folch-Plapp: proved (2D). Moelans: REFUTED."
  },
  {
   "property": "C61",
   "status": "proved",
   "theorems": [
    "C61_rotations_found",
    "C61_differences"
   ],
   "note": "2D kernels, exact arithmetic, unit orientations."
  },
  {
   "property": "C62",
   "status": "proved",
   "theorems": [
    "C62_differences",
    "C62_moduli",
    "C62_motion"
   ],
   "note": "Assumes that no cell has two equally close images of a neighbour (no_ties); right-hand side only with use_diffs_to_compute_flux. 2D, coarse-fine flux correction not modelled."
  },
  {
   "property": "C63",
   "status": "proved",
   "theorems": [
    "C63_length"
   ],
   "note": "2D, exact arithmetic, depth 2 or 4; coarse-fine flux correction and isotropic stencil not modelled."
  },
  {
   "property": "C64",
   "status": "partial",
   "theorems": [
    "C64_identity",
    "C64_equivalent_neighbours",
    "C64_default_reversed",
    "C64_default_refuted",
    "C64_default_aborts_refuted"
   ],
   "note": "Proved with use_diffs_to_compute_flux and for identity rotations. For the default option the claim is refuted: equivalent neighbours give minus the plain right-hand side, and builds with asserts stop for several components."
  },
  {
   "property": "C65",
   "status": "proved",
   "theorems": [
    "C65_projection"
   ],
   "note": "2D kernels; orientations must not vanish (the code divides by the norm without a check)."
  },
  {
   "property": "C66",
   "status": "proved",
   "theorems": [
    "C66_descent_plain",
    "C66_descent_symmetric"
   ],
   "note": "Face coefficients held fixed; ghost values held fixed; one patch."
  },
  {
   "property": "C67",
   "status": "proved",
   "theorems": [
    "C67_face_coefficients"
   ],
   "note": "Bound with (t1+t2)/2 the average the kernel forms and factor the prefactor passed to the kernel."
  },
  {
   "property": "C68",
   "status": "partial",
   "theorems": [
    "C68_linear",
    "C68_sides_zero",
    "C68_cells_zero",
    "C68_cells_refuted"
   ],
   "note": "Linear fields exact for both types; zero set exact for both; the default type is refuted for grains one cell wide."
  },
  {
   "property": "C69",
   "status": "partial",
   "theorems": [
    "C69_gradient",
    "C69_descent",
    "C69_delta_temperature",
    "C69_single_well_refuted",
    "C69_isotropic_refuted"
   ],
   "note": "Gradient and descent for the simple flux and double well, one patch with periodic or zero-flux ghost cells, no orientation or third phase; refuted for the single well type and the isotropic flux; the undercooling drive differs by a neighbour average."
  },
  {
   "property": "C70",
   "status": "partial",
   "theorems": [
    "C70_bounds",
    "C70_linear_refuted",
    "C70_stretched_refuted",
    "C70_anisotropic_refuted"
   ],
   "note": "Exact in time, one patch; bounds proved for the listed settings; refuted for linear interpolation, stretched isotropic cells and strong anisotropy (simple unit cells, aligned crystal)."
  },
  {
   "property": "C71",
   "status": "partial",
   "theorems": [
    "C71_x",
    "C71_y",
    "C71_none",
    "C71_mirror_refuted",
    "C71_sign_refuted",
    "C71_angle_refuted"
   ],
   "note": "Proved beyond the slope cut-off for angles in the range of the arc cosine; refuted for the mirror image, the opposite sign and one component."
  },
  {
   "property": "C72",
   "status": "proved",
   "theorems": [
    "C72_isotropic",
    "C72_simple"
   ],
   "note": "One patch, square cells, polynomials of degree at most 5 sampled at cell centers."
  },
  {
   "property": "C73",
   "status": "partial",
   "theorems": [
    "C73_heat_conserved",
    "C73_temperature_bounds",
    "C73_varying_refuted"
   ],
   "note": "Uniform specific heat; one patch; the refuted theorem shows a varying specific heat breaks conservation."
  },
  {
   "property": "C74",
   "status": "proved",
   "theorems": [
    "C74_metastable",
    "C74_runaway",
    "C74_utrc_bounded",
    "C74_sign"
   ],
   "note": "Uniform field around the cell, simple or isotropic flux."
  },
  {
   "property": "C75",
   "status": "proved",
   "theorems": [
    "C75_gradient",
    "C75_balance",
    "C75_only"
   ],
   "note": "Statements exclude cells where all order parameters vanish (division by zero in the code)."
  },
  {
   "property": "C76",
   "status": "partial",
   "theorems": [
    "C76_gradient",
    "C76_ternary",
    "C76_only",
    "C76_two_types_refuted",
    "C76_volumes_refuted"
   ],
   "note": "The Thermo4PFM solver is external: its equations enter as hypotheses. Refuted for different interpolation types and for different molar volumes."
  },
  {
   "property": "C77",
   "status": "proved",
   "theorems": [
    "C77_direction",
    "C77_pure"
   ],
   "note": "Equal potentials per volume are a hypothesis (the solver provides them when the molar volumes are equal)."
  },
  {
   "property": "C78",
   "status": "partial",
   "theorems": [
    "C78_gradient",
    "C78_ternary",
    "C78_single_grain",
    "C78_balance_calphad",
    "C78_balance_quadratic",
    "C78_balance_ternary",
    "C78_only",
    "C78_two_phase_refuted"
   ],
   "note": "Proved for two solid phases; with one solid phase only for type m and one grain, refuted for type p."
  },
  {
   "property": "C79",
   "status": "partial",
   "theorems": [
    "C79_gradient_partial",
    "C79_edge",
    "C79_edges",
    "C79_weights_refuted"
   ],
   "note": "Conditional on tilting weights in the composition solver, which holds on the edges only; refuted inside for the weights the solver uses."
  },
  {
   "property": "C80",
   "status": "partial",
   "theorems": [
    "C80_agree",
    "C80_differ_refuted"
   ],
   "note": "Exact set of inputs for which the classes agree, and the two kinds of input for which they differ."
  },
  {
   "property": "C81",
   "status": "partial",
   "theorems": [
    "C81_sweep",
    "C81_negative_rows_refuted"
   ],
   "note": "Proved for patches with nonnegative rows; refuted for patches that reach negative rows."
  },
  {
   "property": "C82",
   "status": "proved",
   "theorems": [
    "C82_fixed_points",
    "C82_one_sweep"
   ],
   "note": "Disjoint patches, nonnegative rows, nonzero diagonal. Two dimensions, one process."
  },
  {
   "property": "C83",
   "status": "proved",
   "theorems": [
    "C83_coarsest",
    "C83_levels"
   ],
   "note": "Level solved by the smoother; the multigrid cycle over levels is not modelled. Zeroth-order coefficient bounded below by a positive constant, so the steady temperature solve is not covered."
  },
  {
   "property": "C84",
   "status": "partial",
   "theorems": [
    "C84_early_end",
    "C84_two_patches_refuted"
   ],
   "note": "Proved for one patch; refuted for two patches."
  },
  {
   "property": "C85",
   "status": "partial",
   "theorems": [
    "C85_consistent",
    "C85_spacings",
    "C85_refined_refuted"
   ],
   "note": "Proved with equal spacings (coarsest level), general formula for others; refuted on refined levels."
  },
  {
   "property": "C86",
   "status": "partial",
   "theorems": [
    "C86_exact",
    "C86_spacing_refuted",
    "C86_component_refuted"
   ],
   "note": "Proved with equal spacings and first component; refuted with the spacing of the code on refined levels and for other components."
  },
  {
   "property": "C87",
   "status": "partial",
   "theorems": [
    "C87_phase",
    "C87_temperature",
    "C87_composition",
    "C87_temperature_phase",
    "C87_single_well_refuted",
    "C87_phase_temperature_refuted"
   ],
   "note": "Coarsest level, coefficients frozen, driving forces and orientation terms excluded; refuted for the single well and for the phase-temperature coupling."
  },
  {
   "property": "C88",
   "status": "partial",
   "theorems": [
    "C88_solvable",
    "C88_singular_refuted"
   ],
   "note": "One patch on the coarsest level; the bound is sharp (singular at equality)."
  },
  {
   "property": "C89",
   "status": "partial",
   "theorems": [
    "C89_temperature_single",
    "C89_scalar_single",
    "C89_kks",
    "C89_beckermann",
    "C89_scalar_two_phases",
    "C89_scalar_three_phases",
    "C89_temperature_three_phases",
    "C89_temperature_x_faces",
    "C89_pbg_three_phases_refuted",
    "C89_harmonic_refuted",
    "C89_y_faces_refuted",
    "C89_biased_refuted"
   ],
   "note": "Proved for one order parameter, two phases with arithmetic average, three phases with linear interpolation; refuted for PBG with three phases, the harmonic average with several order parameters, the y faces of the temperature strategy and the biased option."
  },
  {
   "property": "C90",
   "status": "partial",
   "theorems": [
    "C90_patches",
    "C90_isotropic_flux",
    "C90_interface_patches_refuted",
    "C90_isotropic_flux_refuted"
   ],
   "note": "Refuted for temperature dependent interface diffusion and for the isotropic stencil with several order parameters."
  },
  {
   "property": "C91",
   "status": "partial",
   "theorems": [
    "C91_isotropy",
    "C91_axes_refuted",
    "C91_beckermann_mirror_refuted"
   ],
   "note": "Refuted for the liquid of the temperature strategy with several order parameters and for Beckermann (mirror)."
  },
  {
   "property": "C92",
   "status": "proved",
   "theorems": [
    "C92_scalar",
    "C92_temperature",
    "C92_sintering",
    "C92_nonnegative",
    "C92_nonnegative_temperature",
    "C92_bulk",
    "C92_boundary",
    "C92_bound",
    "C92_renumbering_scalar",
    "C92_renumbering_temperature",
    "C92_renumbering_sintering"
   ],
   "note": "On patch-boundary faces the temperature strategy adds only the inner cell (see C90)."
  },
  {
   "property": "C93",
   "status": "partial",
   "theorems": [
    "C93_system_is_residual_partial",
    "C93_ghost_mobility_refuted"
   ],
   "note": "Proved where the ghost mobility at physical boundaries equals the one inside (nothing asked at coarse-fine boundaries); refuted otherwise. Periodic levels and 3D not modelled."
  },
  {
   "property": "C94",
   "status": "proved",
   "theorems": [
    "C94_symmetric",
    "C94_positive_definite",
    "C94_unique_solution"
   ],
   "note": "Periodic levels and 3D not modelled; existence of the solution not proved."
  },
  {
   "property": "C95",
   "status": "proved",
   "theorems": [
    "C95_residual",
    "C95_solution"
   ],
   "note": "Proved for cells where the residual of the linear system vanishes; C95_residual relates the residuals otherwise."
  },
  {
   "property": "C96",
   "status": "partial",
   "theorems": [
    "C96_components_partial",
    "C96_amg_refuted"
   ],
   "note": "Refuted for solver types 2 and 3."
  },
  {
   "property": "C97",
   "status": "proved",
   "theorems": [
    "C97_cahn_hilliard"
   ],
   "note": "One 2D box, exact reals, continuous time; fields continued beyond the box by the boundary condition."
  },
  {
   "property": "C98",
   "status": "proved",
   "theorems": [
    "C98_sintering"
   ],
   "note": "Simple flux, more than one order parameter, one 2D box, exact reals, continuous time; holds with the gradient coefficient the code really uses, see C99."
  },
  {
   "property": "C99",
   "status": "partial",
   "theorems": [
    "C99_proportional_partial",
    "C99_mobility_refuted",
    "C99_mobility_squared",
    "C99_width",
    "C99_width_refuted"
   ],
   "note": "Refuted for the mobility of the composition (squared) and for the width of the grain boundary."
  },
  {
   "property": "C100",
   "status": "proved",
   "theorems": [
    "C100_minima",
    "C100_stationary"
   ],
   "note": "Simple flux for the rates."
  },
  {
   "property": "C101",
   "status": "proved",
   "theorems": [
    "C101_bounds"
   ],
   "note": "Simple flux, more than one order parameter; mobility bounded on the run."
  },
  {
   "property": "C102",
   "status": "partial",
   "theorems": [
    "C102_motion",
    "C102_composition",
    "C102_conservation",
    "C102_velocity",
    "C102_momentum_partial",
    "C102_last_grain_refuted"
   ],
   "note": "Refuted when norderp_A = norderp: last grain immobile. Pair forces themselves: C22, C57."
  },
  {
   "property": "C103",
   "status": "proved",
   "theorems": [
    "C103_condition",
    "C103_rest_untouched",
    "C103_corners",
    "C103_order"
   ],
   "note": "2D; SAMRAI boundary boxes one cell thick and the effect of settype1cells2d/settype2cells2d are assumed as documented in the source."
  },
  {
   "property": "C104",
   "status": "proved",
   "theorems": [
    "C104_no_flux_mirrors",
    "C104_affine_exact",
    "C104_rescaled_units"
   ],
   "note": "2D, patch that touches the physical boundary on all sides for the first two theorems."
  },
  {
   "property": "C105",
   "status": "partial",
   "theorems": [
    "C105_phase",
    "C105_temperature",
    "C105_moving_frame",
    "C105_fourth_order",
    "C105_cahn_hilliard_refuted",
    "C105_sintering_refuted"
   ],
   "note": "Refuted for Cahn-Hilliard and sintering composition; proved for phase, temperature, moving frame and fourth-order fluxes. Orientation and KKS kernels read one layer too but are not covered."
  },
  {
   "property": "C106",
   "status": "partial",
   "theorems": [
    "C106_ramp",
    "C106_unlimited",
    "C106_facts",
    "C106_field",
    "C106_wrong_side_refuted"
   ],
   "note": "The last clause is false: a target on the wrong side is taken at once (C106_wrong_side_refuted)."
  },
  {
   "property": "C107",
   "status": "partial",
   "theorems": [
    "C107_peak",
    "C107_profile",
    "C107_follows_partial",
    "C107_stays",
    "C107_moving_refuted",
    "C107_bounds",
    "C107_patches"
   ],
   "note": "2D. The last clause holds if the peak changes with time or the center is at rest; with constant peak a moving center is not followed (C107_moving_refuted)."
  },
  {
   "property": "C108",
   "status": "proved",
   "theorems": [
    "C108_laboratory",
    "C108_history",
    "C108_history_exact",
    "C108_average"
   ],
   "note": "2D; the average is for one box (one level)."
  },
  {
   "property": "C109",
   "status": "partial",
   "theorems": [
    "C109_fixed_frame",
    "C109_uniform",
    "C109_error",
    "C109_adaptive_refuted",
    "C109_first_refuted"
   ],
   "note": "False for adaptive frames and until the first evaluation of the right-hand side; proved for fixed frames and uniform temperatures. Gaussian temperatures not covered."
  },
  {
   "property": "C110",
   "status": "partial",
   "theorems": [
    "C110_mixture",
    "C110_bounds",
    "C110_rescaled",
    "C110_constant_partial",
    "C110_constant_refuted"
   ],
   "note": "2D. Rescaled rates are right only for capacities that do not depend on the temperature."
  },
  {
   "property": "C111",
   "status": "proved",
   "theorems": [
    "C111_composition",
    "C111_gaussian",
    "C111_minimum"
   ],
   "note": "2D, one level, five-point operator with constant diffusivity; that the solver solves the system is a hypothesis (see C82-C84 for the solver)."
  },
  {
   "property": "C112",
   "status": "proved",
   "theorems": [
    "C112_round_trip",
    "C112_error",
    "C112_second_time"
   ],
   "note": "netCDF is modelled by the effect of its calls, single precision by Flocq without overflow; the values on the flattened level are given (the interpolation of SAMRAI to it is not modelled). For one order parameter or three phases; other cases are C113 and C114."
  },
  {
   "property": "C113",
   "status": "partial",
   "theorems": [
    "C113_first_only",
    "C113_copies",
    "C113_order_parameters_refuted",
    "C113_two_partial",
    "C113_numbered"
   ],
   "note": "The first sentence is false for three or more order parameters (C113_order_parameters_refuted); true for two that sum to one. The second sentence is proved."
  },
  {
   "property": "C114",
   "status": "partial",
   "theorems": [
    "C114_kelvin",
    "C114_divided_again",
    "C114_rescaled_refuted",
    "C114_prescribed"
   ],
   "note": "The second sentence is false: the file is written in reduced units and divided again (C114_rescaled_refuted)."
  },
  {
   "property": "C115",
   "status": "partial",
   "theorems": [
    "C115_needed_variables",
    "C115_size_checked",
    "C115_uniform_values",
    "C115_slice_ignored",
    "C115_slice_refuted",
    "C115_components_refuted"
   ],
   "note": "Two clauses are false: more orientation components than needed are accepted, and 3D files are always refused in 2D while slice_index has no effect."
  },
  {
   "property": "C116",
   "status": "proved",
   "theorems": [
    "C116_volumes",
    "C116_every_grain",
    "C116_any_distribution"
   ],
   "note": "One reduction over all processes at once; MPI by documented effect."
  },
  {
   "property": "C117",
   "status": "proved",
   "theorems": [
    "C117_averages",
    "C117_bounds",
    "C117_deviation"
   ],
   "note": "Only the first composition is averaged by the code."
  },
  {
   "property": "C118",
   "status": "partial",
   "theorems": [
    "C118_nearest",
    "C118_complete_partial",
    "C118_converges_partial",
    "C118_limit",
    "C118_grains_keep",
    "C118_two_patches_refuted",
    "C118_limit_refuted",
    "C118_ghosts_refuted",
    "C118_idle_process_refuted"
   ],
   "note": "Proved: nearest grain within the number of iterations done, grains keep theirs (all levels). Missing: completeness holds only with one patch per process; false in general (four refuted theorems: reset of the flag per patch, limit too small, unfilled ghost cells, idle process)."
  },
  {
   "property": "C119",
   "status": "partial",
   "theorems": [
    "C119_average",
    "C119_range",
    "C119_length",
    "C119_smoother",
    "C119_oscillation",
    "C119_average_3d",
    "C119_keep_3d",
    "C119_range_3d",
    "C119_oscillation_3d_refuted"
   ],
   "note": "All of it in 2D; in 3D the weight of the cell itself is zero, so oscillations are not damped (C119_oscillation_3d_refuted); roughness in 3D not proved. One step with given ghost values."
  },
  {
   "property": "C120",
   "status": "partial",
   "theorems": [
    "C120_unit_only_if_uniform",
    "C120_symmetric",
    "C120_no_rotation_partial",
    "C120_representative_refuted"
   ],
   "note": "False: unit length is lost wherever orientations differ (C120_unit_only_if_uniform), and differences on upper faces are not rotated back (C120_representative_refuted). Proved for uniform surroundings and for faces without rotation."
  },
  {
   "property": "C121",
   "status": "partial",
   "theorems": [
    "C121_binary",
    "C121_ternary",
    "C121_positive",
    "C121_pure",
    "C121_exchange",
    "C121_edge_partial",
    "C121_edge_refuted",
    "C121_fourth_refuted",
    "C121_three_numbers",
    "C121_table",
    "C121_second_section_refuted"
   ],
   "note": "Formulas, positivity, Arrhenius limit, exchange of names and table values proved. False: the ternary formula drops second and third order terms (C121_edge_refuted), a fourth species overwrites the first (C121_fourth_refuted), D.dat repeats a section (C121_second_section_refuted)."
  },
  {
   "property": "C122",
   "status": "proved",
   "theorems": [
    "C122_darken",
    "C122_matrix",
    "C122_frame",
    "C122_edge"
   ],
   "note": "All of it, for all mobilities that can be computed."
  },
  {
   "property": "C123",
   "status": "partial",
   "theorems": [
    "C123_binary",
    "C123_darken",
    "C123_margin_refuted",
    "C123_ternary",
    "C123_fick",
    "C123_dissipates_partial",
    "C123_dissipates_refuted"
   ],
   "note": "Proved for binary alloys; in ternary alloys the two matrices are multiplied in the wrong order, so fluxes can lower the entropy (C123_dissipates_refuted; true where they commute). Checks of the cells admit compositions that stop a binary run (C123_margin_refuted). One patch, 2D, regular stencil, two phases; the Hessian is an argument."
  },
  {
   "property": "C124",
   "status": "partial",
   "theorems": [
    "C124_thermal_refuted",
    "C124_absent",
    "C124_recursion_refuted",
    "C124_kernel_partial"
   ],
   "note": "False: thermal diffusion stops every run (C124_thermal_refuted), and its class would call itself without end (C124_recursion_refuted). Proved: absence of the input and the kernel."
  },
  {
   "property": "C125",
   "status": "partial",
   "theorems": [
    "C125_interface_speed",
    "C125_kinetics",
    "C125_balance_partial",
    "C125_three_phases_refuted",
    "C125_kinetics_ignores"
   ],
   "note": "Exact front for the cubic interpolation and two phases proved; for the quintic one only the leading-order energy balance (C125_balance_partial). False with three phases, where the interface mobility is ignored (C125_three_phases_refuted). One dimension, continuous equation."
  },
  {
   "property": "C126",
   "status": "partial",
   "theorems": [
    "C126_series",
    "C126_equal_refuted",
    "C126_harmonic_refuted",
    "C126_polynomial",
    "C126_jump_refuted"
   ],
   "note": "Series law, positivity and the constant of the quintic interpolation proved. False: infinite for equal compositions (C126_equal_refuted), constant of the cubic interpolation (C126_harmonic_refuted), sign change of the polynomial (C126_jump_refuted). The Hessian is an argument."
  },
  {
   "property": "C127",
   "status": "proved",
   "theorems": [
    "C127_kim",
    "C127_dilute"
   ],
   "note": "For all boxes and ghost widths; with three phases the widths of phase and compositions are equal, as allocated. The solver and the evaluation of a cell are arguments."
  },
  {
   "property": "C128",
   "status": "partial",
   "theorems": [
    "C128_input",
    "C128_value",
    "C128_cells",
    "C128_no_ghosts",
    "C128_max_refuted",
    "C128_default_scale_refuted"
   ],
   "note": "Bounds, monotonicity and cells proved for usable scales (exponential: no overflow; inverse: limit not negative). False: max_orient_mobility multiplies orient_mobility (C128_max_refuted), the default exponential scale gives NaN (C128_default_scale_refuted)."
  },
  {
   "property": "C129",
   "status": "partial",
   "theorems": [
    "C129_slope_partial",
    "C129_cells",
    "C129_exponential_refuted",
    "C129_inverse_refuted"
   ],
   "note": "Proved for the polynomial; for the exponential only between 0 and 1, for the inverse function only where not limited. False elsewhere (C129_exponential_refuted, C129_inverse_refuted)."
  },
  {
   "property": "C130",
   "status": "partial",
   "theorems": [
    "C130_cells",
    "C130_range",
    "C130_warmer",
    "C130_default_refuted"
   ],
   "note": "Cells, range and dependence on temperature proved. False with the default minimum when an activation energy is given (C130_default_refuted). QuatIntegrator.cc:2969 passes eta where the phase is expected; the model takes the phase as an argument."
  },
  {
   "property": "C131",
   "status": "partial",
   "theorems": [
    "C131_face_partial",
    "C131_block_partial",
    "C131_exact_iff",
    "C131_sqrt_refuted",
    "C131_interp2_refuted",
    "C131_threshold_refuted",
    "C131_harmonic_refuted"
   ],
   "note": "Two dimensions, one orientation component, one patch with filled ghosts. The block uses the square root of the mobility (C131_sqrt_refuted); exactly right only where C131_exact_iff says. Phase-dependent second interpolation, harmonic average and cells without solid are wrong too."
  },
  {
   "property": "C132",
   "status": "proved",
   "theorems": [
    "C132_returns",
    "C132_value",
    "C132_history"
   ],
   "note": "Proved for all formulas behind the arrays (arbitrary functions), when the partition coefficient does not depend on the velocity, phase concentrations do not depend on their starting point, and nothing is lagged. Noise off; prescribed temperature a function of time."
  },
  {
   "property": "C133",
   "status": "partial",
   "theorems": [
    "C133_lagged_partial",
    "C133_composition_refuted"
   ],
   "note": "What is lagged proved for all histories (partial: away from the uniform-diffusion start, without Aziz). False as stated: the diffusion coefficient of composition is lagged by the same switch, also without orientation (C133_composition_refuted)."
  },
  {
   "property": "C134",
   "status": "partial",
   "theorems": [
    "C134_turns",
    "C134_value_partial",
    "C134_repeat_refuted",
    "C134_nan",
    "C134_output_refuted"
   ],
   "note": "False: the integrator compares its own velocity array, which nothing writes, with itself, so there is one turn and the phase equation uses the velocity of the call before (C134_turns, C134_value_partial, C134_repeat_refuted). NaN in that array: no return. velocity_output FALSE: no return (assert or null pointer)."
  },
  {
   "property": "C135",
   "status": "partial",
   "theorems": [
    "C135_velocity_partial",
    "C135_same_time",
    "C135_stale_refuted",
    "C135_regrid"
   ],
   "note": "Proved for a time different from the one of the call before; false at the same time (C135_same_time, C135_stale_refuted) and after a regrid (C135_regrid), because the gradient is cached by time in a static variable."
  },
  {
   "property": "C136",
   "status": "proved",
   "theorems": [
    "C136_shown"
   ],
   "note": "Proved for all later calls that do not recompute the diffusion coefficients (perturbed calls)."
  },
  {
   "property": "C137",
   "status": "partial",
   "theorems": [
    "C137_bounds",
    "C137_front",
    "C137_bulk",
    "C137_cells",
    "C137_axes_refuted"
   ],
   "note": "Bounds proved for lists of gradient components of any length (2D and 3D). False: the threshold uses the spacing in x only (C137_axes_refuted)."
  },
  {
   "property": "C138",
   "status": "partial",
   "theorems": [
    "C138_found",
    "C138_nothing_else",
    "C138_booleans_refuted"
   ],
   "note": "Proved for all databases except booleans. False for booleans: there is no branch for them, so `verbose = TRUE` of a NewtonSolver section (as in tests/2Ph1Sl) never arrives (C138_booleans_refuted). Keys are taken without dots, which the tree would read as path separators."
  },
  {
   "property": "C139",
   "status": "partial",
   "theorems": [
    "C139_exact",
    "C139_close",
    "C139_unchanged_refuted"
   ],
   "note": "Exact for numbers of at most ten significant digits, within 5.001e-10 for all others (binary64 and decimal rounding modelled with Flocq). False as stated: ten digits are written (C139_unchanged_refuted)."
  },
  {
   "property": "C140",
   "status": "partial",
   "theorems": [
    "C140_converted",
    "C140_same_content_partial",
    "C140_one_element_refuted"
   ],
   "note": "The converter is proved for all databases. Files written by hand: proved for integers, numbers of ten digits and strings (partial); false for lists of one element and for booleans (C140_one_element_refuted)."
  },
  {
   "property": "C141",
   "status": "partial",
   "theorems": [
    "C141_same_data",
    "C141_starts",
    "C141_json_refuted"
   ],
   "note": "Same data proved, and an exact list of the runs that start. False: a JSON file stops ternary alloys, diffusion from atomic mobilities and Aziz; a name of fewer than four letters and Aziz without NewtonSolver stop as well (C141_starts, C141_json_refuted)."
  },
  {
   "property": "C142",
   "status": "partial",
   "theorems": [
    "C142_exact",
    "C142_entries_partial"
   ],
   "note": "Exact without complex numbers and boxes, which are dropped (C142_entries_partial). The function is not called in the program."
  },
  {
   "property": "C143",
   "status": "proved",
   "theorems": [
    "C143_truthful",
    "C143_work_array"
   ],
   "note": "Proved for arbitrary level operators; the restriction of the solution must be idempotent (averaging the fine data again changes nothing)."
  },
  {
   "property": "C144",
   "status": "partial",
   "theorems": [
    "C144_cycles",
    "C144_all_cycles_refuted",
    "C144_one_level",
    "C144_same_algorithm"
   ],
   "note": "Counts, one-level exactness and equality of the cycles proved. The clause about giving up is proved up to residuals exactly as large as the tolerance, where it is false (C144_all_cycles_refuted)."
  },
  {
   "property": "C145",
   "status": "partial",
   "theorems": [
    "C145_rows_partial",
    "C145_uncoupled_partial",
    "C145_exact_partial",
    "C145_identity"
   ],
   "note": "Proved with one order parameter and without precond_has_dPhidT, or without couplings for any number of order parameters; C146 and C147 show what happens otherwise."
  },
  {
   "property": "C146",
   "status": "partial",
   "theorems": [
    "C146_last_partial",
    "C146_others_unused",
    "C146_all_order_parameters_refuted",
    "C146_dPhidT_refuted"
   ],
   "note": "False: with several order parameters the couplings contain the last one only (C146_last_partial, C146_all_order_parameters_refuted), and the block dPhi/dT ignores the temperature (C146_dPhidT_refuted)."
  },
  {
   "property": "C147",
   "status": "partial",
   "theorems": [
    "C147_memory_partial",
    "C147_old_result_refuted",
    "C147_old_correction_refuted"
   ],
   "note": "Proved without precond_has_dPhidT. False with it: the block dPhi/dT reads the output vector z (C147_old_result_refuted), and with both couplings the temperature is solved with the phase correction of the previous call (C147_old_correction_refuted)."
  },
  {
   "property": "C148",
   "status": "partial",
   "theorems": [
    "C148_disabled",
    "C148_blocks",
    "C148_no_section",
    "C148_empty_section_refuted",
    "C148_runs",
    "C148_default_stops",
    "C148_empty_runs"
   ],
   "note": "Switching blocks proved; an exact list of the settings that stop the callback. False: a missing and an empty section differ in the default of precond_has_dquatdphi (C148_empty_section_refuted), and without a section runs with orientations and fluxes from gradients stop (C148_default_stops)."
  },
  {
   "property": "C149",
   "status": "proved",
   "theorems": [
    "C149_diffusion_turn",
    "C149_diffusion_swap",
    "C149_cahn_hilliard_turn",
    "C149_cahn_hilliard_swap",
    "C149_sintering_turn",
    "C149_sintering_swap",
    "C149_antitrapping_turn",
    "C149_antitrapping_swap",
    "C149_antitrapping_three_turn",
    "C149_antitrapping_three_swap"
   ],
   "note": "Proved for all fields, boxes and spacings in exact arithmetic."
  },
  {
   "property": "C150",
   "status": "proved",
   "theorems": [
    "C150_diffusion",
    "C150_cahn_hilliard",
    "C150_sintering",
    "C150_antitrapping",
    "C150_antitrapping_three"
   ],
   "note": "Proved for all fields that are constant along z."
  },
  {
   "property": "C151",
   "status": "proved",
   "theorems": [
    "C151_cahn_hilliard",
    "C151_sintering"
   ],
   "note": "Proved for all fields, boxes and spacings in exact arithmetic."
  },
  {
   "property": "C152",
   "status": "partial",
   "theorems": [
    "C152_bounded",
    "C152_direction",
    "C152_stationary",
    "C152_three_phase_reduces_refuted"
   ],
   "note": "Bound, direction and rest proved. False: with a missing third phase the three-phase kernel gives the opposite flux, as in two dimensions (C152_three_phase_reduces_refuted)."
  },
  {
   "property": "C153",
   "status": "partial",
   "theorems": [
    "C153_front_x_partial",
    "C153_front_y_partial",
    "C153_front_z_refuted",
    "C153_no_leak_refuted",
    "C153_slab_refuted"
   ],
   "note": "False: a front along z gets nothing (C153_front_z_refuted), a front along y gets a flux through the z-faces (C153_no_leak_refuted), an oblique front in a slab gets another flux than in two dimensions (C153_slab_refuted). Proved for fronts along x, and along y on the x- and y-faces."
  },
  {
   "property": "C154",
   "status": "partial",
   "theorems": [
    "C154_slab_refuted",
    "C154_other_faces_partial",
    "C154_shared_face_refuted"
   ],
   "note": "False: the loop over the z-faces clears the fluxes along y (C154_slab_refuted), so neighbouring patches disagree about a shared face (C154_shared_face_refuted)."
  },
  {
   "property": "C155",
   "status": "partial",
   "theorems": [
    "C155_x_partial",
    "C155_y_partial",
    "C155_z_partial",
    "C155_strategy_partial",
    "C155_small_partial",
    "C155_isotropic",
    "C155_opposite",
    "C155_opposite_refuted"
   ],
   "note": "Proved inside a crystal where the squared slope exceeds 1e-12 and 3 eps4 is not 1; below that threshold the flux is that of the smallest weight (C155_small_partial). False between cells that store the orientation with opposite signs: their mean is zero (C155_opposite_refuted). Faces between different orientations are not covered."
  },
  {
   "property": "C156",
   "status": "partial",
   "theorems": [
    "C156_left_partial",
    "C156_symmetry_refuted"
   ],
   "note": "False for the equivalence of the program, multiplication from the right (C156_symmetry_refuted); the flux is invariant under multiplication from the left (C156_left_partial)."
  },
  {
   "property": "C157",
   "status": "proved",
   "theorems": [
    "C157_turn",
    "C157_swap",
    "C157_rhs_turn"
   ],
   "note": "Proved for all fields, boxes and spacings in exact arithmetic."
  },
  {
   "property": "C158",
   "status": "partial",
   "theorems": [
    "C158_slab_x_partial",
    "C158_slab_y_partial",
    "C158_slab_z",
    "C158_mirror_refuted"
   ],
   "note": "Proved for a crystal turned by -alpha, slopes above the thresholds of the two kernels; for the same quaternion the plane kernel means the mirror image (C158_mirror_refuted)."
  },
  {
   "property": "C159",
   "status": "partial",
   "theorems": [
    "C159_slab_partial",
    "C159_undercooling_refuted",
    "C159_temperature",
    "C159_order_parameters",
    "C159_frame",
    "C159_frame_upwind"
   ],
   "note": "False for the driving force by undercooling: neighbouring temperatures are weighted 1/24 instead of 1/16 (C159_undercooling_refuted). Proved for the other driving forces and kernels with the simple flux."
  },
  {
   "property": "C160",
   "status": "partial",
   "theorems": [
    "C160_simple",
    "C160_isotropic_refuted",
    "C160_temperature"
   ],
   "note": "False: compute_flux_isotropic stops in three dimensions (C160_isotropic_refuted). Simple flux and temperature equation proved."
  },
  {
   "property": "C161",
   "status": "partial",
   "theorems": [
    "C161_sums",
    "C161_cuts_partial",
    "C161_lasts",
    "C161_single_partial",
    "C161_parts_refuted",
    "C161_map",
    "C161_names"
   ],
   "note": "Total and interface energy and the map proved. False for the other parts: they are reset for every patch, so the last patch of a rank is counted only (C161_lasts, C161_parts_refuted); with one patch per rank all parts are proved (C161_single_partial)."
  },
  {
   "property": "C162",
   "status": "partial",
   "theorems": [
    "C162_axes_partial",
    "C162_floor_refuted",
    "C162_uniform",
    "C162_phases_refuted"
   ],
   "note": "Proved without a floor inside the square root (C162_axes_partial). False with one: it is missing on the upper y-side (C162_floor_refuted), so five sixths of it are counted in a uniform crystal (C162_uniform). The second phase has no orientation energy (C162_phases_refuted)."
  },
  {
   "property": "C163",
   "status": "partial",
   "theorems": [
    "C163_bounds",
    "C163_soft_partial",
    "C163_small_refuted",
    "C163_symmetry_partial",
    "C163_symmetry_refuted",
    "C163_fluxes_partial"
   ],
   "note": "Invariance proved for the sign and symmetries from the left, false from the right as the program stores equivalents (C163_symmetry_refuted). The bounds are proved; the softest direction is a lower bound only where the squared slope exceeds 1e-12 (C163_soft_partial, C163_small_refuted). The fluxes are proved to be the derivatives for constant slopes and one orientation."
  },
  {
   "property": "C164",
   "status": "partial",
   "theorems": [
    "C164_slab_partial",
    "C164_mirror_refuted"
   ],
   "note": "Proved for isotropic interfaces, and for a crystal turned by -alpha around z where the slopes exceed the thresholds, without misorientation energy; for the same quaternion the plane program means the mirror image (C164_mirror_refuted)."
  },
  {
   "property": "C165",
   "status": "partial",
   "theorems": [
    "C165_descent_partial"
   ],
   "note": "Proved for an isotropic interface, inner cells (at least one layer away from the sides of the patch) and uniform weights, without orientation energy."
  },
  {
   "property": "C166",
   "status": "partial",
   "theorems": [
    "C166_energies",
    "C166_outside",
    "C166_descent_partial",
    "C166_curvature_refuted"
   ],
   "note": "Proved where the sum of the second differences of the temperature vanishes (C166_descent_partial), false in all other inner cells (C166_curvature_refuted). Same restrictions as C165."
  },
  {
   "property": "C167",
   "status": "partial",
   "theorems": [
    "C167_lasts",
    "C167_symmetric",
    "C167_patches_refuted",
    "C167_map_partial",
    "C167_map_refuted"
   ],
   "note": "The energies of the last patch and the symmetry are proved; false for several patches of a rank (C167_patches_refuted) and for the map, which holds the last pair (C167_map_partial, C167_map_refuted)."
  },
  {
   "property": "C168",
   "status": "proved",
   "theorems": [
    "C168_rotations_found",
    "C168_differences"
   ],
   "note": "3D kernels, exact arithmetic, unit orientations."
  },
  {
   "property": "C169",
   "status": "partial",
   "theorems": [
    "C169_differences",
    "C169_gradients",
    "C169_moduli",
    "C169_coefficients",
    "C169_motion_refuted",
    "C169_aborts_refuted"
   ],
   "note": "Proved for differences, gradients, moduli and face coefficients, without ties. False for the motion: with use_diffs_to_compute_flux the fluxes through the upper faces are not turned back (C169_motion_refuted), and builds with asserts abort on every symmetry-aware run with several components (C169_aborts_refuted)."
  },
  {
   "property": "C170",
   "status": "proved",
   "theorems": [
    "C170_length",
    "C170_projection"
   ],
   "note": "3D kernels, exact arithmetic; one patch, no coarse-fine flux correction."
  },
  {
   "property": "C171",
   "status": "partial",
   "theorems": [
    "C171_identity",
    "C171_equivalent_neighbours_partial",
    "C171_default_refuted"
   ],
   "note": "Proved for the identity and for use_diffs_to_compute_flux. False with the default option, where the cell moves with the opposite of the plain right-hand side (C171_equivalent_neighbours_partial, C171_default_refuted); builds with asserts abort (C169_aborts_refuted)."
  },
  {
   "property": "C172",
   "status": "partial",
   "theorems": [
    "C172_descent_plain",
    "C172_descent_refuted"
   ],
   "note": "Proved without symmetry, coefficients held fixed, one patch. False with symmetry-aware fluxes (C172_descent_refuted)."
  },
  {
   "property": "C173",
   "status": "partial",
   "theorems": [
    "C173_linear",
    "C173_sides_zero",
    "C173_cells_zero_partial",
    "C173_cells_refuted"
   ],
   "note": "Proved for linear fields and the zeros of the modulus from the sides; the default modulus is zero where opposite neighbours agree (C173_cells_zero_partial, C173_cells_refuted)."
  },
  {
   "property": "C174",
   "status": "partial",
   "theorems": [
    "C174_axes",
    "C174_slab_partial",
    "C174_slab_refuted"
   ],
   "note": "Axes proved for all options that run; the section proved without symmetry and with the default option without asserts; false with use_diffs_to_compute_flux and symmetry (C174_slab_refuted)."
  },
  {
   "property": "C175",
   "status": "partial",
   "theorems": [
    "C175_face_coefficients",
    "C175_isotropic_refuted"
   ],
   "note": "The coefficients are proved; the isotropic stencil stops in three dimensions (C175_isotropic_refuted)."
  },
  {
   "property": "C176",
   "status": "partial",
   "theorems": [
    "C176_temperature_single",
    "C176_scalar_single",
    "C176_kks",
    "C176_beckermann",
    "C176_scalar_two_phases",
    "C176_scalar_three_phases",
    "C176_temperature_three_phases_partial",
    "C176_temperature_two_phases_partial",
    "C176_faces_refuted",
    "C176_last_grain_refuted"
   ],
   "note": "Proved for one order parameter, two phases with arithmetic average, three phases with linear interpolation; with temperature dependence and several order parameters refuted for the liquid on y and z faces and for several grains of B on z faces (PBG with three phases and the harmonic average fail as in C89)."
  },
  {
   "property": "C177",
   "status": "partial",
   "theorems": [
    "C177_isotropy",
    "C177_axes_refuted",
    "C177_grains_refuted",
    "C177_beckermann_mirror_refuted"
   ],
   "note": "Refuted for the liquid of the temperature strategy with several order parameters, for several grains of B, and for Beckermann (mirror)."
  },
  {
   "property": "C178",
   "status": "partial",
   "theorems": [
    "C178_patches",
    "C178_plane",
    "C178_plane_temperature_partial",
    "C178_slab",
    "C178_interface_patches_refuted"
   ],
   "note": "Refuted for temperature dependent interface diffusion on patch boundaries; agreement with the plane excludes the faces refuted in C176."
  },
  {
   "property": "C179",
   "status": "partial",
   "theorems": [
    "C179_scalar",
    "C179_temperature",
    "C179_sintering",
    "C179_renumbering_scalar",
    "C179_renumbering_sintering",
    "C179_renumbering_temperature_partial",
    "C179_renumbering_refuted"
   ],
   "note": "Renumbering refuted for temperature dependent coefficients of B on z faces; on patch-boundary faces the temperature strategy adds only the inner cell (see C178)."
  },
  {
   "property": "C180",
   "status": "proved",
   "theorems": [
    "C180_coefficient",
    "C180_memory"
   ],
   "note": "Pointer level: value of every patch side, frame condition, and bounds, for any ghost boxes that contain the patch."
  },
  {
   "property": "C181",
   "status": "partial",
   "theorems": [
    "C181_linear",
    "C181_uniform_partial",
    "C181_bulk",
    "C181_zero_refuted"
   ],
   "note": "Exact for linear interpolation; third-order bound for p and h with the arithmetic average; exactly zero refuted for p."
  },
  {
   "property": "C182",
   "status": "partial",
   "theorems": [
    "C182_coefficient_partial",
    "C182_stops",
    "C182_neighbour_refuted",
    "C182_ghosts_refuted",
    "C182_range_refuted"
   ],
   "note": "Proved for sides whose x neighbour has the same k as the neighbour across, and equal ghost boxes of c and k; refuted otherwise (k neighbour, ghost width, range check)."
  },
  {
   "property": "C183",
   "status": "partial",
   "theorems": [
    "C183_equilibrium_partial",
    "C183_equilibrium_refuted"
   ],
   "note": "Proved for linear interpolation, arithmetic average, uniform k; refuted for p and for the harmonic average."
  },
  {
   "property": "C184",
   "status": "partial",
   "theorems": [
    "C184_sweep",
    "C184_colours",
    "C184_residual",
    "C184_negative_corner_refuted"
   ],
   "note": "Proved for patches whose first cell has a nonnegative index sum; refuted for negative ones. The level statement needs boundary rules that keep the colour."
  },
  {
   "property": "C185",
   "status": "proved",
   "theorems": [
    "C185_fixed_points",
    "C185_one_sweep"
   ],
   "note": "Disjoint patches, nonnegative corners, nonzero diagonal. One process."
  },
  {
   "property": "C186",
   "status": "proved",
   "theorems": [
    "C186_coarsest",
    "C186_levels",
    "C186_phase_block"
   ],
   "note": "Level solved by the smoother; the multigrid cycle over levels is not modelled. Zeroth-order coefficient bounded below by a positive constant."
  },
  {
   "property": "C187",
   "status": "partial",
   "theorems": [
    "C187_early_end",
    "C187_two_patches_refuted"
   ],
   "note": "Proved for one patch; refuted for two patches."
  },
  {
   "property": "C188",
   "status": "partial",
   "theorems": [
    "C188_consistent",
    "C188_spacings",
    "C188_refined_refuted"
   ],
   "note": "Proved with equal spacings (coarsest level), general formula for others; refuted on refined levels."
  },
  {
   "property": "C189",
   "status": "partial",
   "theorems": [
    "C189_exact",
    "C189_spacing_refuted",
    "C189_component_refuted"
   ],
   "note": "Proved with equal spacings and first component; refuted with the spacing of the code on refined levels and for other components."
  },
  {
   "property": "C190",
   "status": "partial",
   "theorems": [
    "C190_equations",
    "C190_problem_solved",
    "C190_mobility_refuted"
   ],
   "note": "Proved for constant mobility and fields even across the physical boundary, in two dimensions on level 0; the exact problem solved is given for all mobilities; refuted for uneven ones. The behaviour of SAMRAI kernels and of HYPRE storage is assumed as documented; the iteration of HYPRE is not modelled."
  },
  {
   "property": "C191",
   "status": "proved",
   "theorems": [
    "C191_smoother_limit",
    "C191_return"
   ],
   "note": "Coarsest level, two dimensions, homogeneous conditions, mobility constant or even across the boundary; solution of HYPRE exact."
  },
  {
   "property": "C192",
   "status": "partial",
   "theorems": [
    "C192_boundary_values",
    "C192_mobility_refuted"
   ],
   "note": "Proved for constant mobility or mobility 1 beside the boundary; refuted otherwise."
  },
  {
   "property": "C193",
   "status": "partial",
   "theorems": [
    "C193_packing",
    "C193_packing_plane",
    "C193_thin_refuted",
    "C193_column_refuted",
    "C193_row_refuted"
   ],
   "note": "Proved for all box sizes of full levels; refuted for levels one cell thick."
  },
  {
   "property": "C194",
   "status": "proved",
   "theorems": [
    "C194_cahn_hilliard",
    "C194_plane",
    "C194_outside"
   ],
   "note": "One patch covering the domain, exact reals, continuous time (the solution of the semi-discrete equations, not the iterates of CVODE)."
  },
  {
   "property": "C195",
   "status": "proved",
   "theorems": [
    "C195_sintering",
    "C195_rates",
    "C195_plane"
   ],
   "note": "One patch covering the domain, exact reals, continuous time; at least two order parameters and the simple flux (the isotropic one stops in three dimensions)."
  },
  {
   "property": "C196",
   "status": "partial",
   "theorems": [
    "C196_rhs_value_partial",
    "C196_outside_partial",
    "C196_plane_partial",
    "C196_gradient_flow_refuted"
   ],
   "note": "Refuted; the value of the rate, the untouched entries and the agreement with two dimensions are proved."
  },
  {
   "property": "C197",
   "status": "proved",
   "theorems": [
    "C197_phases",
    "C197_composition",
    "C197_kept",
    "C197_plane"
   ],
   "note": "One patch; ghost cells hold the periodic continuation."
  },
  {
   "property": "C198",
   "status": "proved",
   "theorems": [
    "C198_phases",
    "C198_weighted",
    "C198_patch",
    "C198_memory"
   ],
   "note": "MobilityCompositionDiffusionStrategy at the level of flat memory; the matrix of a phase is a parameter (free energy strategies and mobilities, see C121-C124); one patch, the loop over patches and the interpolation between levels are not modelled."
  },
  {
   "property": "C199",
   "status": "partial",
   "theorems": [
    "C199_stops_partial",
    "C199_checks_refuted"
   ],
   "note": "Proved which compositions are checked; refuted that all compositions read are. The solid compositions are never checked."
  },
  {
   "property": "C200",
   "status": "partial",
   "theorems": [
    "C200_coefficient",
    "C200_flux_partial",
    "C200_accepts",
    "C200_eta_refuted"
   ],
   "note": "Coefficients for any dimension and number of species (only depth 0 is written), flux in two dimensions with the Fortran kernel of Trap3_Model; refuted that eta enters. Missing: the flux of a patch in three dimensions. The factory does not construct this strategy and the header of its base class is not in the repository, so that the file is not part of the program as built."
  },
  {
   "property": "C201",
   "status": "proved",
   "theorems": [
    "C201_mean_quaternion",
    "C201_mean_complex",
    "C201_mean_angle",
    "C201_grain",
    "C201_local"
   ],
   "note": "Array bounds are not modelled."
  },
  {
   "property": "C202",
   "status": "partial",
   "theorems": [
    "C202_coarsening_stops_refuted",
    "C202_refinement_refuted"
   ],
   "note": "Refuted: what happens instead is proved for all inputs. The boxes of an overlap are taken to be boxes of cells, as SAMRAI documents for cell data. See C18 for the kernels in two dimensions."
  },
  {
   "property": "C203",
   "status": "partial",
   "theorems": [
    "C203_profile",
    "C203_follows_partial",
    "C203_stays",
    "C203_moving_refuted",
    "C203_bounds",
    "C203_patches",
    "C203_outside"
   ],
   "note": "One patch, exact reals. The last clause holds if the peak changes with time or the center is at rest; with constant peak a moving center is not followed (C203_moving_refuted)."
  },
  {
   "property": "C204",
   "status": "proved",
   "theorems": [
    "C204_laboratory",
    "C204_history",
    "C204_history_exact"
   ],
   "note": "One patch, exact reals."
  },
  {
   "property": "C205",
   "status": "proved",
   "theorems": [
    "C205_mixture",
    "C205_bounds",
    "C205_composition",
    "C205_gaussian"
   ],
   "note": "One level, seven-point operator with constant diffusivity; that the solver solves the system is a hypothesis (see C184-C189 for the solver)."
  },
  {
   "property": "C206",
   "status": "partial",
   "theorems": [
    "C206_prints",
    "C206_fractions",
    "C206_sum",
    "C206_range",
    "C206_solid_partial",
    "C206_solid_refuted",
    "C206_eta_partial"
   ],
   "note": "Complete for several order parameters. Partial: with a single order parameter the solid fraction is an L1 norm, the mean of the absolute value, so it exceeds the mean wherever the order parameter is negative in a cell of positive control volume (C206_solid_refuted). Control volumes are assumed to add up to the volume of the domain."
  },
  {
   "property": "C207",
   "status": "partial",
   "theorems": [
    "C207_integrals",
    "C207_maxima",
    "C207_coring_refuted"
   ],
   "note": "Integrals and maxima complete. Refuted part: Cex is printed only if norderp() < 1, and norderp is at least one in every run with order parameters (default 1), so the coring factor is never printed (C207_coring_refuted). The maximum is over the cells of all levels, covered coarse cells included."
  },
  {
   "property": "C208",
   "status": "partial",
   "theorems": [
    "C208_density_partial",
    "C208_range",
    "C208_three_phases",
    "C208_stops_refuted"
   ],
   "note": "Partial: holds if 1 <= norderp_A <= norderp - 1 (or norderp_A is not given). Outside of that range, which is accepted on input, the depth is out of range and the report fails (C208_stops_refuted); with three_phases the second phase is taken for the voids (C208_three_phases)."
  },
  {
   "property": "C209",
   "status": "proved",
   "theorems": [
    "C209_energy",
    "C209_conserved",
    "C209_rescaled"
   ],
   "note": "Proved for the model with one order parameter, in exact arithmetic."
  },
  {
   "property": "C210",
   "status": "proved",
   "theorems": [
    "C210_plot_2d",
    "C210_plot_3d",
    "C210_bounds_2d",
    "C210_bounds_3d",
    "C210_affine_2d",
    "C210_affine_3d"
   ],
   "note": "Proved for the kernels and the loops over patches; only depth 0 of the side data, the coefficient of the first composition, is ever plotted."
  }
 ]
}