{
 "claims": [
  {
   "property": "C01",
   "status": "proved",
   "theorems": [
    "C01_component_count"
   ],
   "note": ""
  },
  {
   "property": "C02",
   "status": "proved",
   "theorems": [
    "C02_time_series"
   ],
   "note": ""
  },
  {
   "property": "C03",
   "status": "proved",
   "theorems": [
    "C03_round_trip",
    "C03_fourier_coefficients"
   ],
   "note": ""
  },
  {
   "property": "C04",
   "status": "partial",
   "theorems": [
    "C04_sample_count_partial",
    "C04_rejects",
    "C04_sample_count_refuted"
   ],
   "note": "Even counts are honoured and bad arguments rejected. Refuted for odd Nt: one sample fewer is returned."
  },
  {
   "property": "C05",
   "status": "proved",
   "theorems": [
    "C05_harmonic_stiffness",
    "C05_harmonic_stiffness_coefficients"
   ],
   "note": ""
  },
  {
   "property": "C06",
   "status": "proved",
   "theorems": [
    "C06_stiffness_derivative",
    "C06_only_C"
   ],
   "note": ""
  },
  {
   "property": "C07",
   "status": "proved",
   "theorems": [
    "C07_rotation_is_delay",
    "C07_rotation_group"
   ],
   "note": ""
  },
  {
   "property": "C08",
   "status": "partial",
   "theorems": [
    "C08_wrapping_range_partial",
    "C08_wrapping_refuted"
   ],
   "note": "Range [-pi,pi) holds. Refuted: the result differs from the input by something else than a multiple of 2 pi (operator precedence)."
  },
  {
   "property": "C09",
   "status": "partial",
   "theorems": [
    "C09_conditioning_scalar",
    "C09_conditioning_array_partial",
    "C09_conditioning_array_refuted"
   ],
   "note": "Scalar minimum in full; one minimum per harmonic when there are fewer than 2*Ndof extra entries. Refuted for 2*Ndof or more: always ValueError."
  },
  {
   "property": "C10",
   "status": "partial",
   "theorems": [
    "C10_zero_crossing_partial",
    "C10_zero_crossing_refuted"
   ],
   "note": "Strict sign changes are flagged exactly. Refuted for a crossing through an exact zero sample."
  },
  {
   "property": "C11",
   "status": "proved",
   "theorems": [
    "C11_cubic",
    "C11_quintic",
    "C11_polynomial"
   ],
   "note": ""
  },
  {
   "property": "C12",
   "status": "proved",
   "theorems": [
    "C12_cubic",
    "C12_quintic",
    "C12_cubic_damping",
    "C12_cubic_damping_force",
    "C12_unilateral",
    "C12_iwan_backbone"
   ],
   "note": ""
  },
  {
   "property": "C13",
   "status": "proved",
   "theorems": [
    "C13_unilateral_law",
    "C13_unilateral_force",
    "C13_no_gradient_at_contact"
   ],
   "note": ""
  },
  {
   "property": "C14",
   "status": "proved",
   "theorems": [
    "C14_iwan_backbone",
    "C14_iwan_force"
   ],
   "note": ""
  },
  {
   "property": "C15",
   "status": "proved",
   "theorems": [
    "C15_aft",
    "C15_aft_cubic",
    "C15_aft_quintic",
    "C15_aft_cubic_damping",
    "C15_aft_unilateral",
    "C15_aft_iwan_backbone",
    "C15_aft_polynomial"
   ],
   "note": "For w <> 0, even Nt above twice the largest harmonic plus one. At w = 0 the code returns dFnldw = 0 without evaluating it."
  },
  {
   "property": "C16",
   "status": "partial",
   "theorems": [
    "C16_jenkins_slip_bound",
    "C16_jenkins_static_force",
    "C16_jenkins_non_updating",
    "C16_harmonic_non_updating_refuted",
    "C16_iwan_static_force",
    "C16_iwan_non_updating"
   ],
   "note": "Jenkins and Iwan elements: slip bound, refinement to the slider law and non-updating force/instant_force calls hold for every call sequence. Refuted for Jenkins instant_force_harmonic(update_prev=False), which overwrites the stored derivatives."
  },
  {
   "property": "C17",
   "status": "proved",
   "theorems": [
    "C17_jenkins_dissipation",
    "C17_jenkins_cycle",
    "C17_vector_jenkins_cycle",
    "C17_iwan_dissipation",
    "C17_iwan_cycle",
    "C17_vector_iwan_cycle",
    "C17_jax_jenkins_cycle",
    "C17_dry_friction_energy",
    "C17_dry_friction_cycle"
   ],
   "note": "Jenkins, VectorJenkins, Iwan, VectorIwan4 and JAX Jenkins: every returned cycle, also a transient first pass. Elastic dry friction: every history and every returned cycle, with any change of the normal force."
  },
  {
   "property": "C18",
   "status": "proved",
   "theorems": [
    "C18_slider_two_cycles",
    "C18_jenkins_two_cycles",
    "C18_iwan_two_cycles",
    "C18_eldry_two_cycles"
   ],
   "note": "Slider with any time-varying limits, Jenkins element, Iwan sliders and elastic dry friction with varying normal load."
  },
  {
   "property": "C19",
   "status": "partial",
   "theorems": [
    "C19_jenkins_steady_partial",
    "C19_jenkins_steady_refuted",
    "C19_more_repeats_no_effect",
    "C19_iwan_steady_partial"
   ],
   "note": "Holds unless the first pass ends at a force below the tolerance; refuted in that case. More than two repeats never change the result."
  },
  {
   "property": "C20",
   "status": "partial",
   "theorems": [
    "C20_vector_jenkins_partial",
    "C20_last_reversal_exists",
    "C20_vector_steady",
    "C20_vector_jenkins_refuted"
   ],
   "note": "Forces and derivatives are equal whenever both implementations run the same number of passes; refuted otherwise with a witness."
  },
  {
   "property": "C21",
   "status": "partial",
   "theorems": [
    "C21_vector_iwan_partial",
    "C21_vector_steady",
    "C21_vector_iwan_refuted"
   ],
   "note": "Forces and derivatives are equal whenever both implementations run the same number of passes; refuted otherwise with a witness."
  },
  {
   "property": "C22",
   "status": "partial",
   "theorems": [
    "C22_jenkins_derivatives",
    "C22_jenkins_aft",
    "C22_iwan_derivatives",
    "C22_iwan_aft",
    "C22_eldry_aft_partial",
    "C22_eldry_open_contact_refuted",
    "C22_eldry_static"
   ],
   "note": "Jenkins, Iwan, JAX Jenkins and elastic dry friction: histories and the Jacobians returned by aft and force are exact away from the limits. Refuted for the aft Jacobian of an open elastic dry friction contact at tangential rest."
  },
  {
   "property": "C23",
   "status": "partial",
   "theorems": [
    "C23_cells",
    "C23_density_integral",
    "C23_uniform_exact",
    "C23_stiffness_strength_bounds",
    "C23_shrinking_refuted",
    "C23_limits",
    "C23_elastic_and_sliding"
   ],
   "note": "Cells, calibration, slider limits, linear range and limit force hold for growth ratio >= 1. Refuted for ratios below 1, which the constructor accepts without filling the interval."
  },
  {
   "property": "C24",
   "status": "partial",
   "theorems": [
    "C24_jenkins_reset",
    "C24_jenkins_prestress",
    "C24_jenkins_prestress_forces",
    "C24_jenkins_round_trip",
    "C24_system_reset",
    "C24_system_prestress_partial",
    "C24_system_prestress_refuted"
   ],
   "note": "Jenkins element for all call sequences; whole systems: reset always restores. The frictionless half is refuted for systems with an Iwan element, where set_prestress_mu raises half-way."
  },
  {
   "property": "C25",
   "status": "partial",
   "theorems": [
    "C25_static_history_refuted",
    "C25_static_after_init_partial"
   ],
   "note": "Refuted: a harmonic evaluation overwrites the static history. After init_history the static results are independent of earlier evaluations."
  },
  {
   "property": "C26",
   "status": "proved",
   "theorems": [
    "C26_coulomb",
    "C26_force_history",
    "C26_static"
   ],
   "note": "Law of every history, of local_force_history, of static evaluations after any call sequence, and (C22_eldry_aft_partial) of aft."
  },
  {
   "property": "C27",
   "status": "partial",
   "theorems": [
    "C27_history_refuted",
    "C27_normal_kept_partial",
    "C27_looking_partial"
   ],
   "note": "Refuted: the stored friction force is not used, so re-evaluating at the stored displacement gives zero friction. Proved: normal forces are kept, and non-updating evaluations change nothing."
  },
  {
   "property": "C28",
   "status": "partial",
   "theorems": [
    "C28_steady_partial",
    "C28_reference_partial",
    "C28_mean_only_refuted"
   ],
   "note": "Steady state, exact Jacobian and equality with the reference element for every motion with a nonzero harmonic; refuted for the harmonic list [0], where aft raises TypeError; the reference element itself may stop early (C19)."
  },
  {
   "property": "C29",
   "status": "partial",
   "theorems": [
    "C29_steady_partial",
    "C29_reversals",
    "C29_plateau_refuted"
   ],
   "note": "Proved whenever the samples have at most 2*max(h) reversals, which is itself proved for every trigonometric polynomial without equal neighbouring samples; refuted by a motion with equal neighbouring samples (plateaus count twice and kept points overflow). The Jacobian is proved where no step is at the slip limit and neighbouring samples differ."
  },
  {
   "property": "C30",
   "status": "partial",
   "theorems": [
    "C30_documented_partial",
    "C30_relative_refuted"
   ],
   "note": "Refuted for xtol_rel and etol_rel: jax/solvers.py 787-794 swaps the two relative quantities. Proved for every list of the other four tolerances."
  },
  {
   "property": "C31",
   "status": "partial",
   "theorems": [
    "C31_protocol_partial",
    "C31_returns",
    "C31_returned_point_refuted"
   ],
   "note": "The tolerance is tested at the iterate before the last step, so the claim for the returned point is refuted; proved for that iterate (lists without xtol_rel/etol_rel), together with the step bound, the Jacobian schedule, every quasi-Newton direction and the returned residual and Jacobian. C31_returns: the call ends normally."
  },
  {
   "property": "C32",
   "status": "partial",
   "theorems": [
    "C32_config_partial",
    "C32_config_refuted",
    "C32_zero_steps_refuted"
   ],
   "note": "Proved for calls that return. Refuted when the residual function raises, and for max_steps = 0 (NameError)."
  },
  {
   "property": "C33",
   "status": "partial",
   "theorems": [
    "C33_range",
    "C33_bracket_partial",
    "C33_bracket_refuted",
    "C33_same_sign",
    "C33_tolerance"
   ],
   "note": "The bracketed sign change needs a nonzero directional residual at the start; refuted without it. Range, bisection count, same_sign and tolerance parts proved."
  },
  {
   "property": "C34",
   "status": "proved",
   "theorems": [
    "C34_two_loop",
    "C34_secant"
   ],
   "note": ""
  },
  {
   "property": "C35",
   "status": "partial",
   "theorems": [
    "C35_roots",
    "C35_jacobian_partial",
    "C35_jacobian_refuted"
   ],
   "note": "Roots correspond for scalar and vector RPtoC; the Jacobian is exact for a scalar RPtoC. Refuted for a vector RPtoC: _conditioned_fun scales columns instead of rows (solvers.py 292)."
  },
  {
   "property": "C36",
   "status": "partial",
   "theorems": [
    "C36_eigs_default_refuted",
    "C36_eigs_default_partial",
    "C36_eigs_explicit"
   ],
   "note": "Refuted: the default list subset_by_index is shared by all calls and line 208 writes to it, so after a call with N < 3 later calls return fewer pairs. Proved when all earlier default calls had N >= 3, and for explicit arguments."
  },
  {
   "property": "C37",
   "status": "proved",
   "theorems": [
    "C37_predictor"
   ],
   "note": ""
  },
  {
   "property": "C38",
   "status": "proved",
   "theorems": [
    "C38_pseudo_zero",
    "C38_orthogonal_zero",
    "C38_pseudo_gradient",
    "C38_orthogonal_gradient"
   ],
   "note": ""
  },
  {
   "property": "C39",
   "status": "proved",
   "theorems": [
    "C39_corrector_value",
    "C39_corrector_jacobian"
   ],
   "note": ""
  },
  {
   "property": "C40",
   "status": "partial",
   "theorems": [
    "C40_converged_refuted",
    "C40_accepted_partial",
    "C40_converged_partial",
    "C40_scaled_partial"
   ],
   "note": "Refuted for verbose < 0: continuation.py 840 keeps points the solver did not converge to. Proved for verbose >= 0: every returned point is the result of a successful solver call on the right equations, and with a sound solver its residual is below the tolerance in the scaling of the code: entry by entry for the first point, later by the mean of RPtoC or, with DynamicCtoP, relative to the Jacobian at the point before."
  },
  {
   "property": "C41",
   "status": "proved",
   "theorems": [
    "C41_range_size",
    "C41_step_control",
    "C41_returns"
   ],
   "note": ""
  },
  {
   "property": "C42",
   "status": "proved",
   "theorems": [
    "C42_callbacks"
   ],
   "note": ""
  },
  {
   "property": "C43",
   "status": "partial",
   "theorems": [
    "C43_silent_refuted",
    "C43_vector_RPtoC_refuted",
    "C43_dynamic_CtoP_refuted",
    "C43_list_refuted",
    "C43_settings_partial",
    "C43_weights_partial"
   ],
   "note": "Refuted in four ways: a silent run sets verbose to 0, a vector RPtoC is replaced by its mean, DynamicCtoP overwrites the CtoP of the user, and the constructor changes the FracLamList of the user. Proved: otherwise every later run equals the run of the original object, for any number of weights FracLam; only runs with lam0 = lam1 may report another direction in the last callback call."
  },
  {
   "property": "C44",
   "status": "partial",
   "theorems": [
    "C44_history_partial",
    "C44_append_partial",
    "C44_history_refuted",
    "C44_kill_refuted"
   ],
   "note": "Proved for file names ending in .npz: the file equals the calls in order and no other file changes. Refuted (1) for other names, where np.savez appends .npz and every call overwrites the history, and (2) for a kill during np.savez, which empties the file first."
  },
  {
   "property": "C45",
   "status": "proved",
   "theorems": [
    "C45_linear_interp",
    "C45_accepted"
   ],
   "note": ""
  },
  {
   "property": "C46",
   "status": "proved",
   "theorems": [
    "C46_cubic_pieces",
    "C46_tangent",
    "C46_upsample",
    "C46_accepted",
    "C46_upsample_accepted"
   ],
   "note": ""
  },
  {
   "property": "C47",
   "status": "partial",
   "theorems": [
    "C47_damping_kept_refuted",
    "C47_frf_damping_refuted",
    "C47_damping_partial",
    "C47_frf_damping_partial"
   ],
   "note": "Refuted: set_new_C with no argument zeroes C, and linear_frf keeps using the old ab after set_new_C(C). Proved for sequences whose calls all give C or ab, and for linear_frf when the last call gives ab."
  },
  {
   "property": "C48",
   "status": "proved",
   "theorems": [
    "C48_static_value",
    "C48_static_jacobian"
   ],
   "note": ""
  },
  {
   "property": "C49",
   "status": "proved",
   "theorems": [
    "C49_hbm_jacobian",
    "C49_hbm_zero",
    "C49_elements"
   ],
   "note": ""
  },
  {
   "property": "C50",
   "status": "proved",
   "theorems": [
    "C50_dFl_jacobian",
    "C50_dFl_zero"
   ],
   "note": ""
  },
  {
   "property": "C51",
   "status": "proved",
   "theorems": [
    "C51_amp_jacobian",
    "C51_amp_zero",
    "C51_amp_phase_jacobian",
    "C51_amp_phase_zero",
    "C51_amp_phase_dA_jacobian",
    "C51_amp_phase_dA_zero"
   ],
   "note": ""
  },
  {
   "property": "C52",
   "status": "proved",
   "theorems": [
    "C52_epmc_jacobian",
    "C52_epmc_zero"
   ],
   "note": "Jacobian for a symmetric mass matrix; the code uses 2 U M for the derivative of U M U."
  },
  {
   "property": "C53",
   "status": "proved",
   "theorems": [
    "C53_base_value",
    "C53_base_jacobian",
    "C53_base_zero",
    "C53_full_coefficients"
   ],
   "note": ""
  },
  {
   "property": "C54",
   "status": "proved",
   "theorems": [
    "C54_frequencies",
    "C54_linear_frf"
   ],
   "note": ""
  },
  {
   "property": "C55",
   "status": "partial",
   "theorems": [
    "C55_frequencies_partial",
    "C55_several_refuted",
    "C55_several_partial",
    "C55_other_numbers_raise",
    "C55_linear_frf_base_refuted",
    "C55_linear_frf_base_partial"
   ],
   "note": "False in the code in two ways. The inertia coupling between base and free degrees of freedom is left out (C55_linear_frf_base_refuted). With several base degrees of freedom and as many frequencies, row i is the response to base degree of freedom i alone at frequency i (C55_several_refuted, C55_several_partial); other numbers raise ValueError. Proved: one base degree of freedom without inertia coupling, for every list of frequencies."
  },
  {
   "property": "C56",
   "status": "proved",
   "theorems": [
    "C56_vprnm_value",
    "C56_vprnm_independent",
    "C56_vprnm_gradient",
    "C56_vprnm_jacobian",
    "C56_vprnm_zero",
    "C56_vprnm_amp_phase_jacobian",
    "C56_vprnm_amp_phase_zero"
   ],
   "note": "With and without filter; norms of the superharmonic force and response assumed nonzero (the code divides by them)."
  },
  {
   "property": "C57",
   "status": "partial",
   "theorems": [
    "C57_all_forces_refuted",
    "C57_no_force_refuted",
    "C57_state_derivative_partial",
    "C57_variational_partial"
   ],
   "note": "Refuted: only the last nonlinear force enters the acceleration; no force at all raises NameError. Proved for systems with exactly one force."
  },
  {
   "property": "C58",
   "status": "proved",
   "theorems": [
    "C58_shooting",
    "C58_stability"
   ],
   "note": ""
  },
  {
   "property": "C59",
   "status": "proved",
   "theorems": [
    "C59_constant_force",
    "C59_inputs",
    "C59_linear_order"
   ],
   "note": ""
  },
  {
   "property": "C60",
   "status": "proved",
   "theorems": [
    "C60_recovers_force",
    "C60_force",
    "C60_inverse"
   ],
   "note": ""
  },
  {
   "property": "C61",
   "status": "partial",
   "theorems": [
    "C61_force_law",
    "C61_nonnegative",
    "C61_memory",
    "C61_unloading_start",
    "C61_elastic",
    "C61_out_of_contact_refuted",
    "C61_out_of_contact_partial",
    "C61_yield_limit_refuted"
   ],
   "note": "Force law, nonnegativity, monotone memory, unloading from the maximum force and the elastic case hold for every call sequence. False of the code: the force need not vanish out of contact after slight yielding (C61_out_of_contact_refuted), and first loading exactly at 1.9 delta_y gives no force (C61_yield_limit_refuted). C61_out_of_contact_partial states when the force does vanish."
  },
  {
   "property": "C62",
   "status": "partial",
   "theorems": [
    "C62_friction_law",
    "C62_static_limit",
    "C62_aft",
    "C62_start",
    "C62_cycle",
    "C62_two_passes_refuted",
    "C62_two_passes_partial"
   ],
   "note": "The friction limit holds for every call sequence and harmonic motion, for both tangential models, separately in each direction; the traction law of the MIF model is C80. Two passes do not always reach the steady state, and no number of passes does (C62_two_passes_refuted). C62_two_passes_partial gives the TAN case with separation once per cycle or constant normal displacement. C62_cycle shows that some number of passes always suffices for one asperity with the TAN model. C62_start gives the start displacement of the harmonic evaluation for every constructor argument and every later call."
  },
  {
   "property": "C63",
   "status": "partial",
   "theorems": [
    "C63_no_grad_partial",
    "C63_no_grad_refuted"
   ],
   "note": "Holds for systems whose elements support calc_grad=False; refuted with a hysteretic element (TypeError)."
  },
  {
   "property": "C64",
   "status": "partial",
   "theorems": [
    "C64_full_step_skipped",
    "C64_root_step_partial",
    "C64_root_step_refuted"
   ],
   "note": "Refuted with same_sign (the default): a full step onto a root is never taken. Proved with same_sign off."
  },
  {
   "property": "C65",
   "status": "partial",
   "theorems": [
    "C65_eldry_scalar_start_refuted",
    "C65_reproduces_partial",
    "C65_tolerance_refuted",
    "C65_unsupported_refuted"
   ],
   "note": "Proved for systems of instantaneous, polynomial, Jenkins, VectorJenkins, Iwan, VectorIwan and elastic dry friction elements whose start is a vector, when the pass count of the tolerance-based elements is the same. False in general: the default tolerance 1e-7 differs from the 1e-10 of aft (C65_tolerance_refuted), and JAX Jenkins elements and elastic dry friction with the default scalar start raise (C65_unsupported_refuted). Rough contact is not covered."
  },
  {
   "property": "C66",
   "status": "partial",
   "theorems": [
    "C66_control_amplitude_partial",
    "C66_control_amplitude_refuted"
   ],
   "note": "Proved at backbone points and for backbones with one mode shape; refuted in between (shape and amplitude are interpolated separately)."
  },
  {
   "property": "C67",
   "status": "proved",
   "theorems": [
    "C67_hbm",
    "C67_amp",
    "C67_amp_phase",
    "C67_vprnm"
   ],
   "note": "Exact arithmetic; the eigenvalue solver is an argument that returns all modes. A control point at rest makes the Python code divide by zero; the model returns no guess then."
  },
  {
   "property": "C68",
   "status": "proved",
   "theorems": [
    "C68_rows",
    "C68_resonance",
    "C68_extra",
    "C68_outside",
    "C68_forces",
    "C68_corrected",
    "C68_returns"
   ],
   "note": "Hypotheses (rom_inputs): sorted harmonic lists starting at 1 after an optional 0, rhi > 1 one of the VPRNM harmonics, positive frequencies. Exact agreement with the VPRNM point needs constant mode shapes or backbone points (see C66) and amplitudes more than 1e-12 apart."
  },
  {
   "property": "C69",
   "status": "partial",
   "theorems": [
    "C69_static",
    "C69_prestress",
    "C69_stuck",
    "C69_update_refuted",
    "C69_update_partial",
    "C69_init_refuted",
    "C69_aft_start_refuted",
    "C69_aft_start_partial"
   ],
   "note": "Re-evaluation after an update is false with elastic dry friction (refuted; holds without it). init_force_history and update_force_history raise with a JAX JenkinsForce (refuted). set_aft_initialize leaves Jenkins and Iwan elements unchanged (refuted); what it does to every element is C69_aft_start_partial. Rough contact: TAN model, and loads that do not lower the largest asperity force (settled); the stuck Jacobian excludes rough contact and Iwan."
  },
  {
   "property": "C70",
   "status": "partial",
   "theorems": [
    "C70_prestress",
    "C70_stuck",
    "C70_elastic_partial",
    "C70_damper_refuted",
    "C70_friction_refuted",
    "C70_static_kept_refuted",
    "C70_static_kept_partial"
   ],
   "note": "Agreement of static and harmonic forces is false for the cubic damper, whose force takes velocities (refuted), and for a static state reached with friction (refuted); harmonic evaluations overwrite the static history of Jenkins and Iwan elements (refuted; other elements keep theirs). Rough contact (TAN model) only for a first load; the stuck case covers Jenkins and elastic dry friction elements. Nt even and larger than 2*max(h)+1."
  },
  {
   "property": "C71",
   "status": "proved",
   "theorems": [
    "C71_elements",
    "C71_residual",
    "C71_unique",
    "C71_sample_count",
    "C71_bound_is_sharp"
   ],
   "note": "For polynomial forces; the discrete means of C15 and C17 become integrals. hbm_res needs a nonzero frequency to speak of time."
  },
  {
   "property": "C72",
   "status": "partial",
   "theorems": [
    "C72_elements_partial",
    "C72_no_memory",
    "C72_any_phase",
    "C72_polynomial",
    "C72_solution_partial",
    "C72_early_stop_refuted"
   ],
   "note": "Proved for sampled, Jenkins, JAX Jenkins, Iwan and elastic dry friction elements and for whole systems. False when the first pass of a Jenkins or Iwan element ends below the tolerance (early stop, refuted with a witness). Rough contact is not covered: no number of passes reaches its steady state (C62_two_passes_refuted)."
  },
  {
   "property": "C73",
   "status": "partial",
   "theorems": [
    "C73_elements_partial",
    "C73_symmetric",
    "C73_solution_partial",
    "C73_extension",
    "C73_early_stop_refuted"
   ],
   "note": "Proved for sampled elements with opposite forces for opposite motions, Jenkins and Iwan elements, JAX Jenkins elements that start at the mean displacement or at zero, and whole systems. False when the first pass of a Jenkins element ends below the tolerance (early stop, refuted with a witness: a mean force on a symmetric motion). Nonzero frequency."
  },
  {
   "property": "C74",
   "status": "partial",
   "theorems": [
    "C74_forced",
    "C74_nonlinear_mode",
    "C74_exact",
    "C74_elements",
    "C74_friction_partial",
    "C74_friction_refuted"
   ],
   "note": "The balance of forced and EPMC solutions, and the powers of springs and dampers, are proved in full. Friction elements take energy from motions with one harmonic; with several harmonics this is refuted for admissible sample counts (C74_friction_refuted)."
  },
  {
   "property": "C75",
   "status": "proved",
   "theorems": [
    "C75_static",
    "C75_history",
    "C75_harmonic",
    "C75_jacobian",
    "C75_nonlinear_mode",
    "C75_solutions",
    "C75_reduced"
   ],
   "note": "All modelled elements (JAX VectorJenkins not listed), static, harmonic and EPMC residuals, call sequences and solutions."
  },
  {
   "property": "C76",
   "status": "proved",
   "theorems": [
    "C76_modes",
    "C76_shape",
    "C76_nonlinear"
   ],
   "note": "Both directions for systems without nonlinear forces; with nonlinear forces the residual at a linear mode."
  },
  {
   "property": "C77",
   "status": "partial",
   "theorems": [
    "C77_response_partial",
    "C77_determined",
    "C77_epmc",
    "C77_hbm_amp",
    "C77_controlled",
    "C77_hbm_amp_phase",
    "C77_vprnm",
    "C77_vprnm_amp_phase",
    "C77_file",
    "C77_columns_partial",
    "C77_mean_refuted",
    "C77_labels_refuted"
   ],
   "note": "Rows, files and headings are proved for harmonics above 0. Refuted for harmonic 0 (C77_mean_refuted) and for the label line of print_vprnm_amp_phase_stats, which is two columns short (C77_labels_refuted)."
  },
  {
   "property": "C78",
   "status": "partial",
   "theorems": [
    "C78_elements",
    "C78_static",
    "C78_history",
    "C78_harmonic_partial",
    "C78_solutions_partial",
    "C78_friction_jacobian_partial",
    "C78_jacobian",
    "C78_nonlinear_mode",
    "C78_tolerance_refuted",
    "C78_damper_refuted"
   ],
   "note": "Proved for all modelled elements in static residuals, call sequences, harmonic balance, solutions and Jacobians, and for EPMC without friction. Friction results depend on the unit of force where the first period ends below the number 1e-10 (C78_tolerance_refuted), and static_res treats displacements as velocities of cubic dampers (C78_damper_refuted). Rough contact with the MIF model is excluded: its interpolation has an absolute threshold. The phase row of epmc_res is converted by the root of the mass."
  },
  {
   "property": "C79",
   "status": "partial",
   "theorems": [
    "C79_harmonic_balance",
    "C79_shooting_partial",
    "C79_unique_motion",
    "C79_agree_partial",
    "C79_elements",
    "C79_damper_refuted"
   ],
   "note": "Proved: exact harmonic motions are zeros of hbm_res (any elements with sampled laws, cubic dampers included); with exact time integration shooting_res is zero exactly at starts of periodic motions, for one element whose law is Lipschitz in the displacements; uniqueness of the motion is proved, not assumed. Refuted for cubic dampers: shooting passes displacements where CubicDamping.force expects velocities (C79_damper_refuted). Several elements: see C57."
  },
  {
   "property": "C80",
   "status": "partial",
   "theorems": [
    "C80_static_law",
    "C80_aft_law",
    "C80_sliding",
    "C80_sliding_refuted"
   ],
   "note": "The traction law is proved for every call sequence and harmonic motion, and sliding with its share between 1 - 5/(4(n-1)) and 1. Sliding at exactly mu times the normal force is refuted: with two radial points there is no tangential force at all (C80_sliding_refuted)."
  },
  {
   "property": "C81",
   "status": "partial",
   "theorems": [
    "C81_elements_partial",
    "C81_sampled",
    "C81_solution_partial",
    "C81_extension",
    "C81_early_stop_refuted"
   ],
   "note": "Proved for sampled elements without memory, Jenkins, Iwan and elastic dry friction elements whose evaluation uses the second pass, and JAX Jenkins elements. Refuted without that condition: a Jenkins element that stops after its first pass returns the transient, which is a different share of a longer period (C81_early_stop_refuted). Rough contact is not covered."
  },
  {
   "property": "C82",
   "status": "partial",
   "theorems": [
    "C82_friction_refuted",
    "C82_yield_refuted",
    "C82_unique_partial",
    "C82_distance_partial",
    "C82_tangent_partial",
    "C82_calls",
    "C82_history_partial"
   ],
   "note": "False with friction at a contact (C82_friction_refuted) and, for every material, when an asperity reaches its yield limit (C82_yield_refuted). Proved for elements whose static force never decreases with the local displacement, in any state of their history: springs, unilateral and Iwan springs, Jenkins and Iwan elements, elastic dry friction without friction; and after any call sequence for rough contact (TAN model) without friction between displacements at which no asperity yields further. JAX Jenkins elements have no static force. Existence of a static state is not claimed."
  },
  {
   "property": "C83",
   "status": "partial",
   "theorems": [
    "C83_frictionless_refuted",
    "C83_static_partial",
    "C83_aft_partial"
   ],
   "note": "False after set_prestress_mu: at the stored position the Jacobian has a quarter of the tangential stiffness although the tangential forces are zero everywhere (C83_frictionless_refuted). Proved for the TAN model: the static force after any call sequence, away from the beginning and end of contact, the yield limit, the largest interference and the friction limit of every asperity (C83_static_partial), and the harmonic evaluation with any number of passes under the same conditions at every sample and a single largest sample of the normal motion (C83_aft_partial). Not covered: the MIF model."
  },
  {
   "property": "C84",
   "status": "partial",
   "theorems": [
    "C84_static_partial",
    "C84_hbm_partial",
    "C84_resonance_partial",
    "C84_history_partial",
    "C84_shooting_refuted",
    "C84_exception_refuted"
   ],
   "note": "Proved for the static residual, all harmonic balance, EPMC and VPRNM residuals with derivatives, and for stateful elements over any sequence of calls without exceptions (value equal, or both orders raise). False for the shooting method, where only the last element's force enters (C84_shooting_refuted), and after a caught exception in the middle of a loop over the elements (C84_exception_refuted). Sums are over R; in float64 the order changes rounding."
  },
  {
   "property": "C85",
   "status": "partial",
   "theorems": [
    "C85_elements_partial",
    "C85_residual_partial",
    "C85_solution_partial",
    "C85_early_stop_refuted"
   ],
   "note": "Proved for the sampled elements, Jenkins, Iwan, elastic dry friction and JAX Jenkins elements when harmonic 0 is on the shorter list or the friction evaluation does not stop after the first pass. Without both it is false (C85_early_stop_refuted). Missing: rough contact."
  },
  {
   "property": "C86",
   "status": "proved",
   "theorems": [
    "C86_static",
    "C86_harmonic",
    "C86_iwan"
   ],
   "note": "Proved for every list of the springs named; Np and gaps of the unilateral spring included. The mean action is sampled, as hbm_res samples the forces. Friction, damping and eldry elements have no potential and are outside the claim."
  },
  {
   "property": "C87",
   "status": "proved",
   "theorems": [
    "C87_static",
    "C87_harmonic"
   ],
   "note": "Polynomial elements are outside the claim: their matrices are symmetric only if their coefficients come from a potential."
  },
  {
   "property": "C88",
   "status": "proved",
   "theorems": [
    "C88_motion",
    "C88_reversal",
    "C88_cosines"
   ],
   "note": "Polynomial elements are included if they have a potential. Dampers and friction elements are outside the claim."
  },
  {
   "property": "C89",
   "status": "proved",
   "theorems": [
    "C89_mode_damping"
   ],
   "note": "Unilateral and Iwan backbone springs are outside the claim: their forces are not polynomials, so their sampled harmonics may do work."
  },
  {
   "property": "C90",
   "status": "partial",
   "theorems": [
    "C90_last",
    "C90_rate_partial",
    "C90_conserved_partial",
    "C90_two_springs_refuted"
   ],
   "note": "Shooting integrates the system with the last element only (C90_last), so the balance holds with the energy of the last spring, which is the energy of the system if it has one spring. With two springs the claim is false (C90_two_springs_refuted, F3). Solutions are exact solutions of the differential equation; solve_ivp is not modelled."
  },
  {
   "property": "C91",
   "status": "proved",
   "theorems": [
    "C91_minimum",
    "C91_gap",
    "C91_hardening"
   ],
   "note": "Minimum of the energy for convex springs, bound of the energy gap by the residual, convexity of the springs of the code; the softening example shows that convexity is needed."
  },
  {
   "property": "C92",
   "status": "partial",
   "theorems": [
    "C92_near_partial",
    "C92_last",
    "C92_rest_partial",
    "C92_two_springs_refuted"
   ],
   "note": "Proved for systems with one spring, and with several elements for the static states of the system with the last element only (C92_last). Refuted for the static states of several springs, because _shooting_state_space keeps only the force of the last element (finding F3): a mass at rest in its static state moves away."
  }
 ]
}