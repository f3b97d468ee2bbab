{
 "claims": [
  {
   "property": "C01",
   "status": "proved",
   "theorems": [
    "C01_mirror_reflects",
    "C01_mirror_involution",
    "C01_mirror_linear",
    "C01_mirror_columns_separate",
    "C01_mirror_coordinates"
   ],
   "note": ""
  },
  {
   "property": "C02",
   "status": "proved",
   "theorems": [
    "C02_nodes_and_coordinates",
    "C02_nodes_inside",
    "C02_spacing",
    "C02_boundary_mesh_outside"
   ],
   "note": ""
  },
  {
   "property": "C03",
   "status": "proved",
   "theorems": [
    "C03_two_point_charges",
    "C03_attractive"
   ],
   "note": ""
  },
  {
   "property": "C04",
   "status": "proved",
   "theorems": [
    "C04_swap_is_mirror",
    "C04_linear_in_charges",
    "C04_molecule_is_sum_of_fragments"
   ],
   "note": ""
  },
  {
   "property": "C05",
   "status": "proved",
   "theorems": [
    "C05_volume_element",
    "C05_scale_factors_are_metric"
   ],
   "note": ""
  },
  {
   "property": "C06",
   "status": "proved",
   "theorems": [
    "C06_centrifugal"
   ],
   "note": ""
  },
  {
   "property": "C07",
   "status": "proved",
   "theorems": [
    "C07_quadrature_exact",
    "C07_no_failure",
    "C07_single_block_refuted"
   ],
   "note": "Exact for two or more blocks; C07_single_block_refuted shows the single-block case fails."
  },
  {
   "property": "C08",
   "status": "proved",
   "theorems": [
    "C08_palindromic",
    "C08_single_block_refuted"
   ],
   "note": "Palindromic for two or more blocks; refuted for one block of 4 points."
  },
  {
   "property": "C09",
   "status": "proved",
   "theorems": [
    "C09_weights_paired",
    "C09_weights_are_NC",
    "C09_unequal_blocks_refuted"
   ],
   "note": "Holds for equal block numbers; refuted (C09_unequal_blocks_refuted) otherwise."
  },
  {
   "property": "C10",
   "status": "proved",
   "theorems": [
    "C10_weighted_sum",
    "C10_linear",
    "C10_mirror_invariant"
   ],
   "note": ""
  },
  {
   "property": "C11",
   "status": "proved",
   "theorems": [
    "C11_single_column_value",
    "C11_constant_columns",
    "C11_single_column_refuted",
    "C11_scf_ratio_is_unweighted"
   ],
   "note": "The single-column result is characterised exactly and shown to differ from the integral."
  },
  {
   "property": "C12",
   "status": "proved",
   "theorems": [
    "C12_fd_exact",
    "C12_fd_error"
   ],
   "note": ""
  },
  {
   "property": "C13",
   "status": "proved",
   "theorems": [
    "C13_parity",
    "C13_first_derivative_centre_zero",
    "C13_symmetrisation_is_noop"
   ],
   "note": ""
  },
  {
   "property": "C14",
   "status": "proved",
   "theorems": [
    "C14_angular_matrices",
    "C14_radial_matrices",
    "C14_stencil_coefficients"
   ],
   "note": ""
  },
  {
   "property": "C15",
   "status": "proved",
   "theorems": [
    "C15_ghost_points",
    "C15_laplacian_ghosts"
   ],
   "note": ""
  },
  {
   "property": "C16",
   "status": "proved",
   "theorems": [
    "C16_laplacian_structure",
    "C16_continuous_laplacian",
    "C16_prefactor_is_w"
   ],
   "note": ""
  },
  {
   "property": "C17",
   "status": "proved",
   "theorems": [
    "C17_laplacian_mirror",
    "C17_parity_preserved"
   ],
   "note": ""
  },
  {
   "property": "C18",
   "status": "proved",
   "theorems": [
    "C18_gradient_divergence",
    "C18_mirror",
    "C18_constants"
   ],
   "note": ""
  },
  {
   "property": "C19",
   "status": "proved",
   "theorems": [
    "C19_sigma_one_column",
    "C19_sigma_two_columns",
    "C19_sigma_cross_refuted",
    "C19_sigma_other_shapes",
    "C19_sigma_mirror"
   ],
   "note": "The cross term of two-column sigma is refuted (sum over the grid, not pointwise)."
  },
  {
   "property": "C20",
   "status": "proved",
   "theorems": [
    "C20_linear",
    "C20_only_total_density",
    "C20_columns_equal",
    "C20_zero",
    "C20_energy_density",
    "C20_succeeds"
   ],
   "note": ""
  },
  {
   "property": "C21",
   "status": "proved",
   "theorems": [
    "C21_poisson",
    "C21_row_pivoting"
   ],
   "note": ""
  },
  {
   "property": "C22",
   "status": "proved",
   "theorems": [
    "C22_interior",
    "C22_boundary",
    "C22_expansion",
    "C22_legendre"
   ],
   "note": ""
  },
  {
   "property": "C23",
   "status": "proved",
   "theorems": [
    "C23_axis_plot",
    "C23_axis_points_on_grid"
   ],
   "note": ""
  },
  {
   "property": "C24",
   "status": "proved",
   "theorems": [
    "C24_density_integrates_to_N",
    "C24_density_is_textbook"
   ],
   "note": ""
  },
  {
   "property": "C25",
   "status": "proved",
   "theorems": [
    "C25_density_nonneg",
    "C25_density_rescaling"
   ],
   "note": ""
  },
  {
   "property": "C26",
   "status": "proved",
   "theorems": [
    "C26_too_few_orbitals",
    "C26_no_orbitals",
    "C26_negative_electrons_refuted"
   ],
   "note": ""
  },
  {
   "property": "C27",
   "status": "proved",
   "theorems": [
    "C27_energy_split",
    "C27_cleanup",
    "C27_large_potential_refuted"
   ],
   "note": "Exact split when |integral of veff*n| <= 1e5; refuted above (Vs is reset to 0 after Ts was formed)."
  },
  {
   "property": "C28",
   "status": "proved",
   "theorems": [
    "C28_chempot_is_max",
    "C28_chempot_no_solvers",
    "C28_homo_is_highest_occupied",
    "C28_homo_no_electrons",
    "C28_homo_incomplete_shell_refuted"
   ],
   "note": "get_homo is the highest occupied level with fractional occupation or filled shells; otherwise it reports the first empty level (refuted companion)."
  },
  {
   "property": "C29",
   "status": "proved",
   "theorems": [
    "C29_orbitals_even_or_odd",
    "C29_sorted_and_attached",
    "C29_no_nan_refuted",
    "C29_sorted_after_retry_refuted"
   ],
   "note": "NaN column for near-degenerate equal-parity pairs and unsorted retried results are refuted companions."
  },
  {
   "property": "C30",
   "status": "proved",
   "theorems": [
    "C30_newton_update",
    "C30_converged_unchanged_refuted"
   ],
   "note": "Each orbital gets the correction of the last unconverged orbital; refuted that converged orbitals stay, UnboundLocalError if the first one is converged."
  },
  {
   "property": "C31",
   "status": "proved",
   "theorems": [
    "C31_normalize_orbitals"
   ],
   "note": ""
  },
  {
   "property": "C32",
   "status": "proved",
   "theorems": [
    "C32_ked_integrates_to_Ts",
    "C32_ked_fractional",
    "C32_ked_fractional_refuted"
   ],
   "note": "Holds for filled shells; the fractional term uses the wrong orbital and norm (refuted companion)."
  },
  {
   "property": "C33",
   "status": "proved",
   "theorems": [
    "C33_response_conserves",
    "C33_response_fractional_fails"
   ],
   "note": "Holds for filled shells; with an incomplete fractional shell the routine raises IndexError (proved)."
  },
  {
   "property": "C34",
   "status": "proved",
   "theorems": [
    "C34_hamiltonian",
    "C34_sign_of_m",
    "C34_mirror"
   ],
   "note": ""
  },
  {
   "property": "C35",
   "status": "proved",
   "theorems": [
    "C35_schedule_independent",
    "C35_start_order_is_a_schedule",
    "C35_dead_worker_KeyError",
    "C35_delivery",
    "C35_solver_choice"
   ],
   "note": ""
  },
  {
   "property": "C36",
   "status": "proved",
   "theorems": [
    "C36_electrons_per_spin",
    "C36_equal_blocks_suffice",
    "C36_density_nonneg"
   ],
   "note": ""
  },
  {
   "property": "C37",
   "status": "proved",
   "theorems": [
    "C37_electrons_every_iteration",
    "C37_spinflip_total",
    "C37_nonneg_every_iteration",
    "C37_mixing_rule",
    "C37_spinflip_mixing",
    "C37_final_state_visited"
   ],
   "note": "Includes C37_spinflip_mixing: with spinflipsym the mixed density is averaged with its mirror image in the other column."
  },
  {
   "property": "C38",
   "status": "proved",
   "theorems": [
    "C38_bound_and_exit",
    "C38_difference_is_residual",
    "C38_nan_stops",
    "C38_zero_energy_is_nan",
    "C38_completes"
   ],
   "note": ""
  },
  {
   "property": "C39",
   "status": "proved",
   "theorems": [
    "C39_empty_spin_ignored",
    "C39_both_spins",
    "C39_one_spin_unweighted"
   ],
   "note": ""
  },
  {
   "property": "C40",
   "status": "proved",
   "theorems": [
    "C40_accepted_keys_take_effect",
    "C40_unknown_key",
    "C40_bad_value",
    "C40_good_dictionary_accepted",
    "C40_accepted_iff",
    "C40_refused",
    "C40_case",
    "C40_words",
    "C40_defaults",
    "C40_scf_mixed_case_ignored_refuted",
    "C40_scf_lower_case_works",
    "C40_scf_unknown_key",
    "C40_partition_scf_isolated_overwritten",
    "C40_scf_settings",
    "C40_inverter_settings",
    "C40_partition_scf_settings"
   ],
   "note": "Pydantic coercions other than int to float are treated as refusals; ke_param (a dict) is left out. Acceptance, admitted words, defaults and the settings in force are stated without the checks of the model."
  },
  {
   "property": "C41",
   "status": "proved",
   "theorems": [
    "C41_auto_tol_raises",
    "C41_auto_tol_returns_only_without_iterating",
    "C41_no_NameError_otherwise"
   ],
   "note": ""
  },
  {
   "property": "C42",
   "status": "proved",
   "theorems": [
    "C42_every_solver_gets_its_column",
    "C42_succeeds",
    "C42_external_argument_ignored_refuted",
    "C42_external_redistributes_stored",
    "C42_scf_solver_potential",
    "C42_stored_potential_has_no_influence"
   ],
   "note": ""
  },
  {
   "property": "C43",
   "status": "proved",
   "theorems": [
    "C43_total_energy",
    "C43_double_counting",
    "C43_hartree_twice"
   ],
   "note": ""
  },
  {
   "property": "C44",
   "status": "proved",
   "theorems": [
    "C44_bitwise",
    "C44_density_symmetric",
    "C44_vhxc_symmetric",
    "C44_vnuc_symmetric",
    "C44_solver_potentials_symmetric"
   ],
   "note": ""
  },
  {
   "property": "C45",
   "status": "proved",
   "theorems": [
    "C45_construction",
    "C45_components",
    "C45_scale_factors",
    "C45_one_nu_fails",
    "C45_one_nu_error",
    "C45_charges",
    "C45_unknown_option",
    "C45_paramke_fails"
   ],
   "note": ""
  },
  {
   "property": "C46",
   "status": "proved",
   "theorems": [
    "C46_total",
    "C46_density",
    "C46_electrons",
    "C46_spin_symmetric",
    "C46_run"
   ],
   "note": ""
  },
  {
   "property": "C47",
   "status": "proved",
   "theorems": [
    "C47_total",
    "C47_values",
    "C47_partition_of_unity"
   ],
   "note": ""
  },
  {
   "property": "C48",
   "status": "proved",
   "theorems": [
    "C48_mirror",
    "C48_mirrorAB",
    "C48_mirrorAB_when",
    "C48_density",
    "C48_density_refuted",
    "C48_run",
    "C48_run_density",
    "C48_run_Q"
   ],
   "note": "Nothing rejects ab_sym with nu_a <> nu_b; then the density is not symmetric (C48_density_refuted)."
  },
  {
   "property": "C49",
   "status": "proved",
   "theorems": [
    "C49_sums",
    "C49_run_sums",
    "C49_run_energy",
    "C49_ensemble_refuted"
   ],
   "note": "In an ensemble without ab_sym the upper component of B is counted twice (C49_ensemble_refuted)."
  },
  {
   "property": "C50",
   "status": "proved",
   "theorems": [
    "C50_energy",
    "C50_run",
    "C50_new"
   ],
   "note": ""
  },
  {
   "property": "C51",
   "status": "proved",
   "theorems": [
    "C51_average",
    "C51_splits",
    "C51_exact_splits",
    "C51_symmetric",
    "C51_common"
   ],
   "note": ""
  },
  {
   "property": "C52",
   "status": "proved",
   "theorems": [
    "C52_potential",
    "C52_new_object",
    "C52_partition_energy",
    "C52_sum",
    "C52_energy"
   ],
   "note": ""
  },
  {
   "property": "C53",
   "status": "proved",
   "theorems": [
    "C53_never",
    "C53_run_not",
    "C53_scf_dead",
    "C53_overlap_first_pass",
    "C53_twoorbital_first_pass",
    "C53_new_overlap",
    "C53_new_twoorbital",
    "C53_new_scf",
    "C53_default_refuted",
    "C53_works"
   ],
   "note": "The default settings cannot complete an interacting iteration (C53_default_refuted)."
  },
  {
   "property": "C54",
   "status": "proved",
   "theorems": [
    "C54_values",
    "C54_range",
    "C54_symmetric",
    "C54_derivative",
    "C54_potential",
    "C54_polarised_refuted",
    "C54_finite"
   ],
   "note": "Exact for one spin column; for two columns right only where the column ratio equals the ratio of totals (refuted companion)."
  },
  {
   "property": "C55",
   "status": "proved",
   "theorems": [
    "C55_energy_refuted",
    "C55_density",
    "C55_sign"
   ],
   "note": "The sign and shape defect is proved (C55_energy_refuted)."
  },
  {
   "property": "C56",
   "status": "proved",
   "theorems": [
    "C56_ab_sym",
    "C56_last_refuted",
    "C56_kinetic_potential"
   ],
   "note": "Without ab_sym the last solver of B decides (C56_last_refuted)."
  },
  {
   "property": "C57",
   "status": "proved",
   "theorems": [
    "C57_exchange",
    "C57_hartree",
    "C57_parts",
    "C57_kinetic",
    "C57_hartree_refuted"
   ],
   "note": "The Hartree density of an ab_sym ensemble counts the first component twice (C57_hartree_refuted)."
  },
  {
   "property": "C58",
   "status": "proved",
   "theorems": [
    "C58_trace",
    "C58_bound",
    "C58_stops",
    "C58_raises",
    "C58_auto_tol",
    "C58_residual",
    "C58_count"
   ],
   "note": ""
  },
  {
   "property": "C59",
   "status": "proved",
   "theorems": [
    "C59_independent",
    "C59_no_potential"
   ],
   "note": "Needs iterative off; it is on by default."
  },
  {
   "property": "C60",
   "status": "proved",
   "theorems": [
    "C60_pass"
   ],
   "note": ""
  },
  {
   "property": "C61",
   "status": "proved",
   "theorems": [
    "C61_history",
    "C61_run",
    "C61_exit"
   ],
   "note": ""
  },
  {
   "property": "C62",
   "status": "proved",
   "theorems": [
    "C62_jacobian_is_derivative",
    "C62_norm_rows_refuted",
    "C62_jacobian_symmetric",
    "C62_zero_is_inverse",
    "C62_kohn_sham_rows",
    "C62_norm_rows",
    "C62_density_rows"
   ],
   "note": "The norm rows 0<i<M-1 are refuted: residual uses orbital 0, Jacobian orbital i."
  },
  {
   "property": "C63",
   "status": "proved",
   "theorems": [
    "C63_normalize_when",
    "C63_normalize",
    "C63_symmetrize",
    "C63_symmetrize_apart",
    "C63_symmetrize_degenerate_refuted"
   ],
   "note": "Two degenerate orbitals of equal parity give NaN (refuted companion)."
  },
  {
   "property": "C64",
   "status": "proved",
   "theorems": [
    "C64_loop",
    "C64_choice",
    "C64_success",
    "C64_nan_refuted",
    "C64_nan_density_refuted",
    "C64_exact_guess"
   ],
   "note": "A NaN residual is reported as success (C64_nan_refuted)."
  },
  {
   "property": "C65",
   "status": "proved",
   "theorems": [
    "C65_Ts_sum",
    "C65_Ts_needs",
    "C65_ts_refuted",
    "C65_ts_ens_spin_sym"
   ],
   "note": "The kinetic energy density is that of the last level only (C65_ts_refuted)."
  },
  {
   "property": "C66",
   "status": "proved",
   "theorems": [
    "C66_gauge_row",
    "C66_gauge_jacobian",
    "C66_gauge_jacobian_ab",
    "C66_jacobian_rows",
    "C66_jacobian_needs_chi",
    "C66_density",
    "C66_zero",
    "C66_polarised_never",
    "C66_polarised_error"
   ],
   "note": "Polarised targets without ens_spin_sym can never succeed (proved)."
  },
  {
   "property": "C67",
   "status": "proved",
   "theorems": [
    "C67_type_checked",
    "C67_bad_type",
    "C67_dispatch"
   ],
   "note": ""
  },
  {
   "property": "C68",
   "status": "proved",
   "theorems": [
    "C68_lda",
    "C68_gga_one_spin",
    "C68_gga_two_spins",
    "C68_weak_form_determines",
    "C68_spin_exchange",
    "C68_other_family"
   ],
   "note": ""
  },
  {
   "property": "C69",
   "status": "proved",
   "theorems": [
    "C69_spinflip",
    "C69_spinflip_integrate"
   ],
   "note": ""
  },
  {
   "property": "C70",
   "status": "proved",
   "theorems": [
    "C70_hartree_mirror"
   ],
   "note": ""
  },
  {
   "property": "C71",
   "status": "proved",
   "theorems": [
    "C71_nonsingular",
    "C71_maximum_principle",
    "C71_hartree_nonneg"
   ],
   "note": ""
  },
  {
   "property": "C72",
   "status": "proved",
   "theorems": [
    "C72_response_first_order",
    "C72_pi_shell_response_refuted"
   ],
   "note": "The factor for m<>0 is missing in the code (refuted companion)."
  },
  {
   "property": "C73",
   "status": "proved",
   "theorems": [
    "C73_construction",
    "C73_nuclear_potential",
    "C73_minus_one_electrons",
    "C73_shape_mismatch",
    "C73_unknown_option",
    "C73_succeeds",
    "C73_shift",
    "C73_shift_united_refuted"
   ],
   "note": "Includes the shift e0 handed to the eigenvalue solvers and a refuted companion: for equal nuclei it lies above the united-atom level."
  },
  {
   "property": "C74",
   "status": "proved",
   "theorems": [
    "C74_green",
    "C74_self_adjoint",
    "C74_dissipative"
   ],
   "note": ""
  },
  {
   "property": "C75",
   "status": "proved",
   "theorems": [
    "C75_lda_one_spin",
    "C75_lda_two_spins",
    "C75_gga_one_spin"
   ],
   "note": ""
  },
  {
   "property": "C76",
   "status": "proved",
   "theorems": [
    "C76_xc_mirror"
   ],
   "note": ""
  },
  {
   "property": "C77",
   "status": "proved",
   "theorems": [
    "C77_after_orbitalinvert",
    "C77_after_orbitalinvert_full",
    "C77_after_wuyang",
    "C77_after_simple",
    "C77_before"
   ],
   "note": ""
  },
  {
   "property": "C78",
   "status": "proved",
   "theorems": [
    "C78_account",
    "C78_guess",
    "C78_exact_potential",
    "C78_Ts",
    "C78_2d",
    "C78_second_call",
    "C78_two_columns"
   ],
   "note": ""
  },
  {
   "property": "C79",
   "status": "proved",
   "theorems": [
    "C79_levels",
    "C79_levels_error",
    "C79_odd",
    "C79_iterative",
    "C79_short_guess"
   ],
   "note": ""
  },
  {
   "property": "C80",
   "status": "proved",
   "theorems": [
    "C80_unpolarised",
    "C80_ens_spin_sym",
    "C80_no_guess",
    "C80_start"
   ],
   "note": ""
  },
  {
   "property": "C81",
   "status": "proved",
   "theorems": [
    "C81_entries",
    "C81_points",
    "C81_closed",
    "C81_ordered",
    "C81_succeeds",
    "C81_two_columns_refuted"
   ],
   "note": "Arrays with two columns are refused (C81_two_columns_refuted)."
  },
  {
   "property": "C82",
   "status": "proved",
   "theorems": [
    "C82_never_returns_refuted",
    "C82_derivative",
    "C82_bounds",
    "C82_defined"
   ],
   "note": "No call returns (C82_never_returns_refuted)."
  },
  {
   "property": "C83",
   "status": "proved",
   "theorems": [
    "C83_energy",
    "C83_density",
    "C83_density_integrates",
    "C83_density_ensemble_refuted",
    "C83_density_symmetric_refuted"
   ],
   "note": "Ensemble and ab_sym densities do not integrate to Ep_kin (refuted companions)."
  },
  {
   "property": "C84",
   "status": "proved",
   "theorems": [
    "C84_gradients",
    "C84_fragment_half_refuted",
    "C84_exchange",
    "C84_exchange_refuted"
   ],
   "note": "The A column, the fragment potentials and the exchange symmetry are wrong by the displayed terms (refuted companions)."
  },
  {
   "property": "C85",
   "status": "proved",
   "theorems": [
    "C85_blocks",
    "C85_potential",
    "C85_between",
    "C85_symmetric_refuted"
   ],
   "note": "Contracts of scipy.linalg.eig (real eigenvalues) and argsort are hypotheses inside level_ok; complex eigenvalues are not modelled. With ab_sym the generalised eigenproblem is singular (refuted companion)."
  },
  {
   "property": "C86",
   "status": "proved",
   "theorems": [
    "C86_outer_difference",
    "C86_diagonal",
    "C86_ensemble_refuted"
   ],
   "note": "Ensemble densities do not integrate to Ep_kin (C86_ensemble_refuted)."
  },
  {
   "property": "C87",
   "status": "proved",
   "theorems": [
    "C87_component_electrons",
    "C87_electrons",
    "C87_nonneg",
    "C87_symmetric"
   ],
   "note": "Contracts: worker_ok (solver orbitals can be normalised), occupied shells that can be placed, and for ab_sym a quadrature invariant under mirroring."
  },
  {
   "property": "C88",
   "status": "proved",
   "theorems": [
    "C88_ks_fixed",
    "C88_ks_certificate",
    "C88_part_fixed",
    "C88_part_certificate"
   ],
   "note": "Needs finite residuals and positive integrals of the densities; the certificate bounds alpha times the change, so a small alpha weakens it."
  },
  {
   "property": "C89",
   "status": "proved",
   "theorems": [
    "C89_density",
    "C89_energy",
    "C89_two_passes",
    "C89_isolated"
   ],
   "note": "Contract steady: the answer of a worker depends only on the attributes and the potential of the solver on the grid, not on earlier orbitals, iteration mode or completion order. Real ARPACK answers with random start vectors satisfy it only up to phases and rounding."
  },
  {
   "property": "C90",
   "status": "proved",
   "theorems": [
    "C90_kohnsham_iterates",
    "C90_partition_iterates",
    "C90_iterates_unique",
    "C90_isolated_as_kohnsham"
   ],
   "note": "Contract steady as in C89."
  },
  {
   "property": "C91",
   "status": "proved",
   "theorems": [
    "C91_eigenpairs",
    "C91_exchanged_charges",
    "C91_homonuclear"
   ],
   "note": "Contract equivariant: a worker given the mirrored potential answers with the mirrored orbitals up to sign and the same eigenvalues. It excludes arbitrary rotations within degenerate levels (C91_eigenpairs shows that mirrored orbitals are correct answers). Both runs are assumed to return."
  },
  {
   "property": "C92",
   "status": "proved",
   "theorems": [
    "C92_exchanged_spins",
    "C92_closed_shell"
   ],
   "note": "Contract equivariant with the identity: the answer depends only on attributes and potential, up to the sign of each orbital. Functionals pointwise and spin symmetric."
  },
  {
   "property": "C93",
   "status": "proved",
   "theorems": [
    "C93_exchanged_nuclei",
    "C93_identical_fragments"
   ],
   "note": "Contract equivariant as in C91. Target density and continuation off."
  },
  {
   "property": "C94",
   "status": "proved",
   "theorems": [
    "C94_newton_step",
    "C94_recomputed",
    "C94_restart"
   ],
   "note": "Contracts used: linear_solver (numpy.linalg.solve returns solutions), orbital_solver (eigenpairs in the given potential); ab_sym off."
  },
  {
   "property": "C95",
   "status": "proved",
   "theorems": [
    "C95_functional",
    "C95_two_treatments",
    "C95_gradient_refuted",
    "C95_residual_refuted"
   ],
   "note": "Contracts used: spin_blind (the eigensolver answer depends on the potential, the level and the number of orbitals only), closed_functionals (the library gives closed shells equal values in both forms), hartree_setting (exact sparse solver)."
  },
  {
   "property": "C96",
   "status": "proved",
   "theorems": [
    "C96_reduced_gradient_refuted",
    "C96_collected_densities_refuted",
    "C96_enhancement_factors_refuted"
   ],
   "note": ""
  },
  {
   "property": "C97",
   "status": "proved",
   "theorems": [
    "C97_embedding_potential",
    "C97_subsystem_potential"
   ],
   "note": "The potentials are written with the specification functions kinetic_pot and repulsion_pot, which call the library and the Hartree solver only."
  },
  {
   "property": "C98",
   "status": "proved",
   "theorems": [
    "C98_exchanged_nuclei",
    "C98_identical_fragments",
    "C98_energy_sum"
   ],
   "note": "Contract equivariant as in C91; local_embedding asks the library functionals to work point by point. Target density and continuation off."
  },
  {
   "property": "C99",
   "status": "proved",
   "theorems": [
    "C99_total_energy"
   ],
   "note": "Frozen fragments allowed; no ensemble, no ab_sym, target density off. Fragment energies enter as their kinetic energies E.Ts, which C39 relates to the orbitals."
  },
  {
   "property": "C100",
   "status": "proved",
   "theorems": [
    "C100_every_pass",
    "C100_complete_runs"
   ],
   "note": "Contracts as in C98. Both complete runs are assumed to return; ensembles are excluded because E.Ef depends on the order of the nuclei there (C98)."
  },
  {
   "property": "C101",
   "status": "proved",
   "theorems": [
    "C101_angular",
    "C101_radial",
    "C101_nine_point"
   ],
   "note": "Hypothesis sharp: no coefficient is set to zero by the code although the exact one is not (the code rounds tiny coefficients to zero); met by the five nonzero nine-point coefficients (witness)."
  },
  {
   "property": "C102",
   "status": "proved",
   "theorems": [
    "C102_laplacian_with_boundary",
    "C102_laplacian"
   ],
   "note": "Same hypothesis as C101; fine and fits say that the sampled function has the needed parity and derivatives."
  },
  {
   "property": "C103",
   "status": "proved",
   "theorems": [
    "C103_hamiltonian",
    "C103_orbital_residual"
   ],
   "note": "The eigensolver is not involved: the theorem is about the matrix handed to it."
  },
  {
   "property": "C104",
   "status": "proved",
   "theorems": [
    "C104_quadrature",
    "C104_weight_sizes"
   ],
   "note": "The end point term is exact: the grid has no node at the ends, the rule is built as if it had."
  },
  {
   "property": "C105",
   "status": "proved",
   "theorems": [
    "C105_volume_integral"
   ],
   "note": "Contract lstsq_ok: the least-squares solves of NC return solutions of the moment equations."
  },
  {
   "property": "C106",
   "status": "proved",
   "theorems": [
    "C106_correlated_hartree",
    "C106_needs_ensemble",
    "C106_energies",
    "C106_left",
    "C106_runs",
    "C106_overlap_xc",
    "C106_overlap_hxc",
    "C106_response",
    "C106_weights",
    "C106_overlap_hxc_refuted"
   ],
   "note": "The parts (Ep_h, Ep_x, Ep_c, F, Ehcor) are assumed to vary with the stored potentials as slopes; linear variations are the witness. Objects for which the overlap modes run must hold E.Ts from an earlier solve (C54, new_overlap_never)."
  },
  {
   "property": "C107",
   "status": "proved",
   "theorems": [
    "C107_density",
    "C107_potentials"
   ],
   "note": "For a polarised molecule without ens_spin_sym only the report of the second spin is kept (inversion_info is overwritten); the theorem is about that spin. wuyang: see C66."
  },
  {
   "property": "C108",
   "status": "proved",
   "theorems": [
    "C108_hartree_converges",
    "C108_points",
    "C108_consistent"
   ],
   "note": "Three-point stencils only (the maximum principle does not hold for wider ones); the error of the truncated multipole expansion on the boundary is a parameter."
  },
  {
   "property": "C109",
   "status": "proved",
   "theorems": [
    "C109_hartree_continuous",
    "C109_hartree_bound"
   ],
   "note": "Three-point stencils only."
  },
  {
   "property": "C110",
   "status": "proved",
   "theorems": [
    "C110_pass",
    "C110_same_iterates",
    "C110_continued",
    "C110_continued_states"
   ],
   "note": "Contract steady: the answer of an eigenvalue solver depends on the solver and its potential only."
  },
  {
   "property": "C111",
   "status": "proved",
   "theorems": [
    "C111_static",
    "C111_self_consistency_refuted"
   ],
   "note": "Same contract; the refuted claim is a finding about alpha = 0."
  },
  {
   "property": "C112",
   "status": "proved",
   "theorems": [
    "C112_geometry",
    "C112_operators",
    "C112_nuclei"
   ],
   "note": "No contracts."
  },
  {
   "property": "C113",
   "status": "proved",
   "theorems": [
    "C113_schroedinger",
    "C113_density",
    "C113_energy",
    "C113_homo",
    "C113_kinetic_density",
    "C113_run_density",
    "C113_run_energy"
   ],
   "note": "Contract scaled_workers for the runs: the eigenvalue solver answers the scaled problem with the same orbitals and scaled levels (C113_schroedinger shows that these are solutions); and steady."
  },
  {
   "property": "C114",
   "status": "proved",
   "theorems": [
    "C114_hartree",
    "C114_sigma",
    "C114_exchange"
   ],
   "note": "Contracts: exact sparse solvers; exchange_like for the functional library (satisfied by a gga functional in the witness). Only exchange has this scaling; correlation functionals do not."
  },
  {
   "property": "C115",
   "status": "proved",
   "theorems": [
    "C115_gradient",
    "C115_sigma",
    "C115_divergence",
    "C115_divergence_refuted",
    "C115_potential_refuted"
   ],
   "note": "The odd continuation makes diva, divr minus the adjoints of grada, gradr (C74), so integrated quantities are consistent; pointwise values beside the axis are not."
  },
  {
   "property": "C116",
   "status": "proved",
   "theorems": [
    "C116_truncation",
    "C116_ghost_values",
    "C116_far_field",
    "C116_circle",
    "C116_addition",
    "C116_legendre_bound",
    "C116_every_density",
    "C116_radii",
    "C116_radii_refuted"
   ],
   "note": "No contracts. Typical grids (a = 1, L = 3, 36 radial points) meet sinh(2L) sinh(h) > 1 easily; only very fine or very flat grids do not."
  },
  {
   "property": "C117",
   "status": "proved",
   "theorems": [
    "C117_bound",
    "C117_nonneg",
    "C117_error"
   ],
   "note": "Contract: exact sparse solvers and a factorisation without row exchange, as in C71, C108, C109."
  },
  {
   "property": "C118",
   "status": "proved",
   "theorems": [
    "C118_weights",
    "C118_integrate",
    "C118_two_spins",
    "C118_overlap",
    "C118_hartree",
    "C118_nine_refuted"
   ],
   "note": "Contract: the least-squares solves return exact solutions (lstsq_ok). Block sizes above 10 are not covered."
  },
  {
   "property": "C119",
   "status": "proved",
   "theorems": [
    "C119_ground_level",
    "C119_simple",
    "C119_bounds",
    "C119_above_potential"
   ],
   "note": "Three-point stencils and radial step at most 1 only; wider stencils have positive off-diagonal entries."
  },
  {
   "property": "C120",
   "status": "proved",
   "theorems": [
    "C120_potential",
    "C120_angular",
    "C120_mirror"
   ],
   "note": "As C119."
  },
  {
   "property": "C121",
   "status": "proved",
   "theorems": [
    "C121_lowest_levels",
    "C121_safe_shift",
    "C121_every_shift_refuted"
   ],
   "note": "Contract nearest: scipy eigs with sigma returns eigenpairs nearest to sigma. Real pairs; the code takes real parts."
  },
  {
   "property": "C122",
   "status": "proved",
   "theorems": [
    "C122_real",
    "C122_weight",
    "C122_orthogonal"
   ],
   "note": "As C119; completeness of the orbitals is not claimed."
  },
  {
   "property": "C123",
   "status": "proved",
   "theorems": [
    "C123_minimum",
    "C123_concave",
    "C123_first_order",
    "C123_kinetic"
   ],
   "note": "As C119."
  },
  {
   "property": "C124",
   "status": "proved",
   "theorems": [
    "C124_identity",
    "C124_level",
    "C124_from_below"
   ],
   "note": "The bound is relative to the overlap of the computed with the exact orbital and to a weighted mean of the computed one, which are known after a run; m = 0 for the second-order bound."
  },
  {
   "property": "C125",
   "status": "proved",
   "theorems": [
    "C125_rate",
    "C125_change",
    "C125_unique",
    "C125_stops"
   ],
   "note": "The contraction factor is a hypothesis on solver and functional, as is the dependence of the energy on the density; spinflipsym off. The witness has q = 0."
  },
  {
   "property": "C126",
   "status": "proved",
   "theorems": [
    "C126_weight",
    "C126_radial",
    "C126_orthogonal",
    "C126_first_order"
   ],
   "note": "Plain sums over the grid points times the volume element, not the Newton-Cotes weights of integrate."
  },
  {
   "property": "C127",
   "status": "proved",
   "theorems": [
    "C127_empty_density",
    "C127_no_force",
    "C127_as_kohnsham",
    "C127_energy"
   ],
   "note": "Contract steady as in C89 for the comparison with Kohnsham.scf only. The witness has an orbital that depends on the potential."
  },
  {
   "property": "C128",
   "status": "proved",
   "theorems": [
    "C128_continued",
    "C128_continued_energy",
    "C128_same_passes",
    "C128_same_energy",
    "C128_resumes",
    "C128_no_density"
   ],
   "note": "Needs a steady eigenvalue solver: its answer depends on the static data of the solver and the potential at the grid points, not on previous results or the requested accuracy. A real iterative eigensolver satisfies this only up to its tolerance. The concrete case is two fragments on a 3-point grid, max_iter=2 in one call against max_iter=1 twice; both end with total energy 4."
  },
  {
   "property": "C129",
   "status": "proved",
   "theorems": [
    "C129_passes",
    "C129_energies",
    "C129_levels"
   ],
   "note": "Contracts: raised_workers (levels higher by the constant, orbitals equal up to a factor) and normed_workers (orbitals with non-zero norm). calc_orbitals looks for levels near a fixed energy (C121), so for large constants the first contract can fail in practice. Both calls are assumed to return."
  },
  {
   "property": "C130",
   "status": "proved",
   "theorems": [
    "C130_levels",
    "C130_chempot",
    "C130_kinetic"
   ],
   "note": "E.Ts is the difference of the level sum and an integral with the quadrature weights of psgrid; the discrete kinetic energy is positive with another weight (C122, C123), so the bound has the variation of the potential in it and no sign for E.Ts in general is claimed."
  },
  {
   "property": "C131",
   "status": "proved",
   "theorems": [
    "C131_converges_refuted",
    "C131_density_refuted"
   ],
   "note": "The eigensolver of the case is deterministic (steady) but not derived from a Hamiltonian: external solvers are arguments of the model. The theorems are named _refuted because they refute the claim that damping suffices."
  },
  {
   "property": "C132",
   "status": "proved",
   "theorems": [
    "C132_energy",
    "C132_more_charge",
    "C132_concave",
    "C132_trial"
   ],
   "note": "The contract on the eigensolver is on the final state: the first stored level belongs to a nodeless orbital in the solver's own potential (C121 says when calc_orbitals delivers it)."
  },
  {
   "property": "C133",
   "status": "proved",
   "theorems": [
    "C133_nuclear",
    "C133_external",
    "C133_hartree"
   ],
   "note": "sym, spinflipsym and continuing are left out."
  },
  {
   "property": "C134",
   "status": "proved",
   "theorems": [
    "C134_floor",
    "C134_single"
   ],
   "note": "The contract on the eigensolver is only that each returned eigenvalue is one of the discrete problem; it need not find the lowest ones. sym, spinflipsym and continuing are left out."
  },
  {
   "property": "C135",
   "status": "proved",
   "theorems": [
    "C135_solver",
    "C135_run",
    "C135_charges"
   ],
   "note": "The interacting loop is left out because it stores the mixed density. sym, spinflipsym and continuing are left out of the statements about runs."
  },
  {
   "property": "C136",
   "status": "proved",
   "theorems": [
    "C136_response",
    "C136_charge"
   ],
   "note": "The means use the weights of the symmetric form of the operator (C122), not those of integrate; the two differ by the squares of the spacings."
  },
  {
   "property": "C137",
   "status": "proved",
   "theorems": [
    "C137_solver",
    "C137_density",
    "C137_run",
    "C137_run_density"
   ],
   "note": "The order of the levels is a hypothesis on the final solvers; calc_orbitals sorts them only when the first call of eigs succeeds (calc_orbitals.py:44-53). sym, spinflipsym and continuing are left out."
  },
  {
   "property": "C138",
   "status": "proved",
   "theorems": [
    "C138_solver",
    "C138_run",
    "C138_order"
   ],
   "note": "The order of the levels is a hypothesis on the final solvers, as in C137. Without fractional occupation get_homo may name an empty orbital (C28). The energy contains E.Vext, which E leaves out (section 6)."
  }
 ]
}