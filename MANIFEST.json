{
 "claims": [
  {
   "property": "C01",
   "status": "proved",
   "theorems": [
    "C01_weights_normalised",
    "C01_bad_weights_rejected"
   ],
   "note": ""
  },
  {
   "property": "C02",
   "status": "proved",
   "theorems": [
    "C02_band_membership",
    "C02_construction_memory_safe",
    "C02_construction_outcome"
   ],
   "note": ""
  },
  {
   "property": "C03",
   "status": "proved",
   "theorems": [
    "C03_linear_is_constant",
    "C03_linear_tiling",
    "C03_too_short_rejected",
    "C03_nside"
   ],
   "note": ""
  },
  {
   "property": "C04",
   "status": "partial",
   "theorems": [
    "C04_edges",
    "C04_edges_accepted",
    "C04_reversed_edge_refuted"
   ],
   "note": "Proved for non-empty intervals; a reversed trailing interval is silently dropped (C04_reversed_edge_refuted)."
  },
  {
   "property": "C05",
   "status": "proved",
   "theorems": [
    "C05_bin_unbin",
    "C05_overlap_refuted"
   ],
   "note": "Overlapping bands are accepted by the constructor and break the round trip (C05_overlap_refuted)."
  },
  {
   "property": "C06",
   "status": "proved",
   "theorems": [
    "C06_unbin_values",
    "C06_f_ell_stored",
    "C06_is_Dell",
    "C06_explicit_f_ell_wins"
   ],
   "note": ""
  },
  {
   "property": "C07",
   "status": "partial",
   "theorems": [
    "C07_bin_is_weighted_average",
    "C07_bin_linear",
    "C07_bin_local",
    "C07_bin_bounded",
    "C07_negative_f_ell_refuted"
   ],
   "note": "Proved for the f_ell stored by the constructor; non-positive f_ell are silently replaced by one (C07_negative_f_ell_refuted)."
  },
  {
   "property": "C08",
   "status": "partial",
   "theorems": [
    "C08_effective_ells",
    "C08_ell_min_max",
    "C08_ell_min_refuted"
   ],
   "note": "Proved; get_ell_min/max are the extremes only for increasing input (C08_ell_min_refuted)."
  },
  {
   "property": "C09",
   "status": "partial",
   "theorems": [
    "C09_bin_cell_guard",
    "C09_unbin_cell_guard",
    "C09_band_index_guard",
    "C09_negative_index_refuted",
    "C09_negative_multipole_refuted"
   ],
   "note": "Proved for non-negative multipoles and indices; negative band indices and negative multipoles reach C unchecked (refutations)."
  },
  {
   "property": "C10",
   "status": "partial",
   "theorems": [
    "C10_search_finds_band",
    "C10_search_outside",
    "C10_search_exact",
    "C10_guess_independent",
    "C10_gap_refuted"
   ],
   "note": "Proved for sorted bands (and exactly for contiguous ones); in a gap the look-up returns a neighbouring band that depends on the guess (C10_gap_refuted)."
  },
  {
   "property": "C11",
   "status": "proved",
   "theorems": [
    "C11_unbin_values",
    "C11_unbin_values_2d",
    "C11_bin_unbin",
    "C11_effective_ells",
    "C11_bin_at_effective_ells",
    "C11_bin_not_average_refuted"
   ],
   "note": "Unbinning for contiguous bands; bin_cell samples the centre of the band instead of averaging as documented (C11_bin_not_average_refuted)."
  },
  {
   "property": "C12",
   "status": "proved",
   "theorems": [
    "C12_couple_is_matrix",
    "C12_couple_linear",
    "C12_couple_shape"
   ],
   "note": ""
  },
  {
   "property": "C13",
   "status": "proved",
   "theorems": [
    "C13_decouple_couple_unbin",
    "C13_repeated_multipole_refuted"
   ],
   "note": "Needs that no multipole is listed twice, also inside a band; the constructor accepts repeated multipoles (C13_repeated_multipole_refuted)."
  },
  {
   "property": "C14",
   "status": "proved",
   "theorems": [
    "C14_windows"
   ],
   "note": ""
  },
  {
   "property": "C15",
   "status": "proved",
   "theorems": [
    "C15_biases_subtracted",
    "C15_decouple_linear",
    "C15_bias_length"
   ],
   "note": "Biases longer than the spectrum raise instead of being truncated (C15_bias_length)."
  },
  {
   "property": "C16",
   "status": "partial",
   "theorems": [
    "C16_get_after_update",
    "C16_update_with_own_matrix",
    "C16_other_shapes_rejected",
    "C16_get_overflows",
    "C16_update_overflows"
   ],
   "note": "Proved up to 46340 rows; for every larger matrix the 32-bit index arithmetic overflows (C16_get_overflows, C16_update_overflows)."
  },
  {
   "property": "C17",
   "status": "proved",
   "theorems": [
    "C17_latest_beams_win"
   ],
   "note": "Stated for any history of updates; see also C18_updates_are_recomputation."
  },
  {
   "property": "C18",
   "status": "proved",
   "theorems": [
    "C18_updates_are_recomputation",
    "C18_update_bins"
   ],
   "note": "One theorem covers all histories of update_beams, update_bins and update_coupling_matrix, including rejected ones."
  },
  {
   "property": "C19",
   "status": "proved",
   "theorems": [
    "C19_fkp",
    "C19_fkp_independent"
   ],
   "note": ""
  },
  {
   "property": "C20",
   "status": "proved",
   "theorems": [
    "C20_spin0_spinS",
    "C20_spinS_spinS_zeros",
    "C20_spinS_spinS_symmetry",
    "C20_formula_00",
    "C20_formula_0s",
    "C20_formula_ss",
    "C20_formula_pure_02",
    "C20_formula_pure_22"
   ],
   "note": "Block zeros and symmetries, and the closed formulas of the un-purified and purified entries in terms of the 3j symbols."
  },
  {
   "property": "C21",
   "status": "proved",
   "theorems": [
    "C21_symmetric_up_to_2l1"
   ],
   "note": ""
  },
  {
   "property": "C22",
   "status": "proved",
   "theorems": [
    "C22_TT_block",
    "C22_TP_blocks",
    "C22_PP_blocks",
    "C22_mixed_blocks_zero",
    "C22_odd_spin_refuted"
   ],
   "note": "Even spins; for odd spins the blocks differ by a sign (C22_odd_spin_refuted, whose witness lives in Coq.Reals)."
  },
  {
   "property": "C23",
   "status": "proved",
   "theorems": [
    "C23_exchange_of_fields",
    "C23_mixed_spins_purified_refuted"
   ],
   "note": "Fails for two purified fields of different non-zero spin (C23_mixed_spins_purified_refuted)."
  },
  {
   "property": "C24",
   "status": "proved",
   "theorems": [
    "C24_linear_in_mask_spectrum",
    "C24_full_sky_identity"
   ],
   "note": "The laws of sqrt, exp, log and of the 3j symbols at l1 = 0 are hypotheses; met by Coq's real functions (lawsR) and, for the 3j symbols, by the row that drc3jj computes (C92_full_sky)."
  },
  {
   "property": "C25",
   "status": "partial",
   "theorems": [
    "C25_wrapper_exchanges_0b_and_e0",
    "C25_exchange_of_fields",
    "C25_symmetric_up_to_2l1",
    "C25_isotropic_limit",
    "C25_0b_ignored",
    "C25_e0_ignored",
    "C25_defined",
    "C25_names_refuted",
    "C25_odd_spin_refuted"
   ],
   "note": "isotropic limit (up to (-1)^(s1+s2)), symmetry, exchange of fields and definedness are proved for all inputs. The last clause is false: the SWIG wrapper passes the 0B spectrum as e0 and E0 as 0b (C25_wrapper_exchanges_0b_and_e0, C25_names_refuted), so with one isotropic mask the 0B (or E0) spectrum has no effect at all (C25_0b_ignored, C25_e0_ignored). Exact equality with the isotropic matrix is false for odd spin sums (C25_odd_spin_refuted). The laws of 3j symbols used here hold for the row that drc3jj computes (C92_anisotropic_symmetric, C92_isotropic_limit)."
  },
  {
   "property": "C26",
   "status": "proved",
   "theorems": [
    "C26_accepted_parameters",
    "C26_rejected_parameters",
    "C26_exact_region"
   ],
   "note": ""
  },
  {
   "property": "C27",
   "status": "proved",
   "theorems": [
    "C27_race_free_main",
    "C27_race_free_toeplitz",
    "C27_race_free_fill",
    "C27_race_free_apply",
    "C27_race_free_anisotropic",
    "C27_schedule_independent",
    "C27_schedule_independent_anisotropic",
    "C27_execution_exists"
   ],
   "note": "Every OpenMP region of the isotropic (plain, purified, T-E-B, Toeplitz) and anisotropic computation; loads and stores of the threads interleave arbitrarily. Assumes the sequential consistency OpenMP gives race-free programs; race freedom is itself proved (C27_race_free). The argument uses no law of the field operations."
  },
  {
   "property": "C28",
   "status": "partial",
   "theorems": [
    "C28_no_undefined_behaviour",
    "C28_table_neighbours_irrelevant",
    "C28_table_overrun_refuted",
    "C28_teb_purified_refuted",
    "C28_short_mask_refuted",
    "C28_spin0_purified_refuted"
   ],
   "note": "Proved for field pairs as the Python constructors allow them; ln-factorial table neighbours are read but never influence the result. Reading unwritten or foreign memory is possible for a T-E-B workspace with a purified field, a short mask spectrum and a purified spin-0 field (refutations)."
  },
  {
   "property": "C29",
   "status": "proved",
   "theorems": [
    "C29_uninitialised_raises",
    "C29_failed_load",
    "C29_which_failures",
    "C29_until_loaded",
    "C29_flag_is_right"
   ],
   "note": "An argument error found before the old matrix is released (incompatible fields, lmax of fields and bins) leaves the object unchanged; every other failure leaves it uninitialised."
  },
  {
   "property": "C30",
   "status": "partial",
   "theorems": [
    "C30_matrix_needed_raises",
    "C30_decouple_unchanged",
    "C30_update_refuted"
   ],
   "note": "Proved for get/update matrix, couple, windows, write (raise) and decouple (same result). False for update_beams and update_bins: they do not check for the matrix and every acceptable call dereferences a null pointer (C30_update_refuted)."
  },
  {
   "property": "C31",
   "status": "proved",
   "theorems": [
    "C31_succeeds",
    "C31_raises",
    "C31_long_beam_refuted",
    "C31_anisotropic_teb_ignored",
    "C31_anisotropic_toeplitz_zero_refuted"
   ],
   "note": "Success is proved for beams of exactly lmax+1 values and un-purified T-E-B fields. Findings: a longer beam, which NmtField accepts, raises RuntimeError (C31_long_beam_refuted); with anisotropic masks is_teb is ignored (C31_anisotropic_teb_ignored) and l_toeplitz=0 is rejected (C31_anisotropic_toeplitz_zero_refuted)."
  },
  {
   "property": "C32",
   "status": "partial",
   "theorems": [
    "C32_round_trip",
    "C32_fkp_update_refuted"
   ],
   "note": "Proved for every sequence of later calls with the MASTER normalisation and for sequences without updates with FKP, for schemes in which each multipole occurs once. False otherwise: the number w2 of the FKP normalisation is not stored, so every update accepted by the original uses an uninitialised number after reading (C32_fkp_update_refuted)."
  },
  {
   "property": "C33",
   "status": "partial",
   "theorems": [
    "C33_round_trip",
    "C33_overlap_refuted"
   ],
   "note": "Proved for schemes in which each multipole occurs once (order within a band becomes ascending). A multipole in two bands is lost from one, or the file cannot be read (C33_overlap_refuted)."
  },
  {
   "property": "C34",
   "status": "partial",
   "theorems": [
    "C34_legacy_never_read_refuted"
   ],
   "note": "False: the error status of the first reader is never cleared, so every file without the new table is rejected (C34_legacy_never_read_refuted); the example shows a legacy file that the fall-back would read on its own."
  },
  {
   "property": "C35",
   "status": "partial",
   "theorems": [
    "C35_orthogonal",
    "C35_small_template_refuted",
    "C35_vanishing_template_refuted",
    "C35_usable"
   ],
   "note": "Spherical fields without purification, under the eigenvalue condition; C35_small_template_refuted: a template with an eigenvalue below the tolerance is not removed; C35_vanishing_template_refuted: a template that vanishes inside the mask makes the field unusable. eigh/inv are oracles. Flat-sky fields: see C81."
  },
  {
   "property": "C36",
   "status": "partial",
   "theorems": [
    "C36_template_amplitude",
    "C36_idempotent"
   ],
   "note": "Invariance: HEALPix and CAR; idempotence: HEALPix only. Fields without purification, same eigenvalue condition as C35."
  },
  {
   "property": "C37",
   "status": "proved",
   "theorems": [
    "C37_premultiplied",
    "C37_outside_mask",
    "C37_anisotropic",
    "C37_purified_outside_mask_refuted",
    "C37_negative_mask_refuted"
   ],
   "note": "C37_purified_outside_mask_refuted and C37_negative_mask_refuted show that the claims fail for purified fields in the excluded cases."
  },
  {
   "property": "C38",
   "status": "proved",
   "theorems": [
    "C38_necessary",
    "C38_sufficient",
    "C38_consistent",
    "C38_lite"
   ],
   "note": "Python values of the wrong type (strings, ragged arrays) are not modelled except for beam and templates; sufficiency for purified fields asks for transforms returning arrays of the right shape."
  },
  {
   "property": "C39",
   "status": "proved",
   "theorems": [
    "C39_any_order",
    "C39_survives_calculator_change",
    "C39_nothing_else",
    "C39_lite_recomputes_refuted",
    "C39_value"
   ],
   "note": "C39_lite_recomputes_refuted: a lite field gives a different answer after the calculator is changed."
  },
  {
   "property": "C40",
   "status": "proved",
   "theorems": [
    "C40_meaning",
    "C40_reflexive",
    "C40_symmetric",
    "C40_transitive",
    "C40_strict"
   ],
   "note": ""
  },
  {
   "property": "C41",
   "status": "proved",
   "theorems": [
    "C41_noise",
    "C41_scaling",
    "C41_weighted",
    "C41_degrees",
    "C41_clustering_noise",
    "C41_monopole",
    "C41_clustering_scaling",
    "C41_full_master_refuted",
    "C41_full_master_lite_refuted",
    "C41_no_map",
    "C41_no_map_clustering"
   ],
   "note": "Non-uniform transform of ducc0 is an oracle. C41_full_master_refuted / C41_full_master_lite_refuted: compute_full_master, which needs these noise levels, never works for catalogue or lite fields."
  },
  {
   "property": "C42",
   "status": "proved",
   "theorems": [
    "C42_pairs",
    "C42_low_multipoles_refuted",
    "C42_same_object",
    "C42_maps",
    "C42_clustering"
   ],
   "note": "Multipoles l >= |spin| and the identity test on objects as the code has it; C42_low_multipoles_refuted: below the spin the code subtracts a noise that is not there; C42_same_object: two separately built copies of one catalogue keep their self pairs."
  },
  {
   "property": "C43",
   "status": "proved",
   "theorems": [
    "C43_order",
    "C43_exchange",
    "C43_bilinear"
   ],
   "note": ""
  },
  {
   "property": "C44",
   "status": "proved",
   "theorems": [
    "C44_bias",
    "C44_anisotropic_refuted",
    "C44_default_iterations_refuted"
   ],
   "note": "Any number of maps and templates, any linear transforms, purified or not, any expectation with finite support. Hypotheses: no anisotropic mask and n_iter equal to that of the fields; both are needed (C44_anisotropic_refuted, C44_default_iterations_refuted). Full-sky fields only."
  },
  {
   "property": "C45",
   "status": "partial",
   "theorems": [
    "C45_bias",
    "C45_cross_component_refuted",
    "C45_purified_refuted",
    "C45_flipped_refuted"
   ],
   "note": "Proved for fields that are neither purified nor anisotropically masked, whose pixels are stored in input order, with n_iter equal to that of the field: exact for auto-components, and for the sum of the two orders of a cross-component. Refuted otherwise: C45_cross_component_refuted (EB and BE entries on their own), C45_purified_refuted, C45_flipped_refuted (variance map of a CAR field with flipped axes is not reordered)."
  },
  {
   "property": "C46",
   "status": "proved",
   "theorems": [
    "C46_layout",
    "C46_negative"
   ],
   "note": ""
  },
  {
   "property": "C47",
   "status": "partial",
   "theorems": [
    "C47_python_and_c_agree",
    "C47_partition",
    "C47_unique_ring",
    "C47_mirror",
    "C47_ring_of_centre",
    "C47_accepted_sizes",
    "C47_nside_one_refuted"
   ],
   "note": "Proved: partition, agreement of the Python ring table with the C ring limits, mirror symmetry, ring of a ring centre (nside up to 10^8, for any square root with sqrt(x^2)=x). Refuted for nside = 1: C47_nside_one_refuted shows that a 12-pixel map, a valid HEALPix map, is refused. The numerical rounding of sqrt is not modelled."
  },
  {
   "property": "C48",
   "status": "proved",
   "theorems": [
    "C48_unpad_pad",
    "C48_values",
    "C48_total",
    "C48_rings_long_enough",
    "C48_dot"
   ],
   "note": ""
  },
  {
   "property": "C49",
   "status": "proved",
   "theorems": [
    "C49_sky",
    "C49_same_sky",
    "C49_injective",
    "C49_wrong_shape"
   ],
   "note": "The WCS library is replaced by the linear CAR coordinates; reduction of right ascension modulo 360 degrees is left out."
  },
  {
   "property": "C50",
   "status": "proved",
   "theorems": [
    "C50_residual",
    "C50_exact_fixed",
    "C50_additive"
   ],
   "note": "The transforms of ducc0/healpy are arbitrary linear maps (hypothesis transforms)."
  },
  {
   "property": "C51",
   "status": "partial",
   "theorems": [
    "C51_rejected_unchanged",
    "C51_accepted",
    "C51_takes_effect",
    "C51_always_valid",
    "C51_nan_refuted"
   ],
   "note": "Proved except for NaN: a NaN tolerance passes the range check (C51_nan_refuted)."
  },
  {
   "property": "C52",
   "status": "proved",
   "theorems": [
    "C52_accepted",
    "C52_coupled_value",
    "C52_scalar",
    "C52_from_fields"
   ],
   "note": "Wigner-3j symbols and libm are oracles; closed form without the Toeplitz approximation. The sizes of the output arrays are bounded by 2^31-1, see C56."
  },
  {
   "property": "C53",
   "status": "proved",
   "theorems": [
    "C53_coupled_transpose",
    "C53_decoupled_transpose",
    "C53_auto_symmetric",
    "C53_from_fields"
   ],
   "note": "Both the coupled and the binned covariance; C53_from_fields also exchanges the pairs before computing the coupling coefficients (fields with the same pixels and parameters)."
  },
  {
   "property": "C54",
   "status": "proved",
   "theorems": [
    "C54_first_pair",
    "C54_second_pair",
    "C54_first_pair_binned",
    "C54_from_fields"
   ],
   "note": "Coupled covariance for both pairs; for the binned one (first pair) the binned coupling matrix of the exchanged pair must be the relabelled one, as C23 shows of computed ones. C54_from_fields: exchanging fields exchanges the two spectra of mask products."
  },
  {
   "property": "C55",
   "status": "proved",
   "theorems": [
    "C55_accepted",
    "C55_sandwich",
    "C55_unique",
    "C55_unwritten",
    "C55_unwritten_refuted"
   ],
   "note": "coupled=False. C55_unwritten / C55_unwritten_refuted: with coupled=True the rows and columns of multipoles outside the bandpowers are returned uninitialised."
  },
  {
   "property": "C56",
   "status": "proved",
   "theorems": [
    "C56_not_computed",
    "C56_wrong_workspace",
    "C56_wrong_number",
    "C56_no_covariance_workspace",
    "C56_too_short",
    "C56_lite_workspace",
    "C56_unequal_lengths",
    "C56_multipoles_beyond_lmax",
    "C56_spin0_only",
    "C56_too_large_rejected",
    "C56_too_large",
    "C56_overflow_refuted"
   ],
   "note": "Decision table for any arguments. C56_too_large / C56_overflow_refuted: an output with more than 2^31-1 elements (two spin-2 pairs at lmax 12287) is refused with an unrelated ValueError or worse. Spins are assumed non-negative in C56_spin0_only."
  },
  {
   "property": "C57",
   "status": "proved",
   "theorems": [
    "C57_positive",
    "C57_small_maps",
    "C57_diagonal",
    "C57_overflow_refuted",
    "C57_wrap_refuted",
    "C57_zero_covariance"
   ],
   "note": "Restricted to products of mode numbers that fit an int (C57_small_maps: at most 46340 pixels). Above that the int product overflows: undefined behaviour, C57_overflow_refuted, and under wrap-around a 256x256 map with one band has a covariance of exactly zero, C57_wrap_refuted and C57_zero_covariance."
  },
  {
   "property": "C58",
   "status": "proved",
   "theorems": [
    "C58_bounds",
    "C58_positive",
    "C58_far",
    "C58_nearest",
    "C58_smooth_zero",
    "C58_flat_bounds",
    "C58_flat_far",
    "C58_flat_nearest",
    "C58_flat_defined",
    "C58_libm_laws",
    "C58_window_grows"
   ],
   "note": "C58_far/C58_nearest state the documented window; on the curved sky C58_nearest needs the disc query to be complete (hypothesis complete; C89 proves it away from the poles), on the flat sky square pixels (see C64). C58_libm_laws: the laws asked of libm hold for the real functions. Masked pixels keep negative values."
  },
  {
   "property": "C59",
   "status": "partial",
   "theorems": [
    "C59_zero_scale",
    "C59_negative_scale",
    "C59_unknown_type",
    "C59_wrong_size",
    "C59_smooth_zero_scale",
    "C59_flat_zero_scale",
    "C59_flat_negative_scale",
    "C59_flat_unknown_type",
    "C59_flat_unknown_type_refuted"
   ],
   "note": "All cases proved, except that mask_apodization_flat accepts an unknown type when the scale is zero (C59_flat_unknown_type_refuted) and that Smooth with a zero scale returns the square of the mask (C59_smooth_zero_scale), not a copy."
  },
  {
   "property": "C60",
   "status": "proved",
   "theorems": [
    "C60_curved",
    "C60_flat"
   ],
   "note": "Loads and stores of all threads interleave arbitrarily; if the sequential code fails no execution returns a map. The Gaussian smoothing that follows on the flat sky is a function of the map."
  },
  {
   "property": "C61",
   "status": "proved",
   "theorems": [
    "C61_round_trip",
    "C61_round_trip_back",
    "C61_power",
    "C61_threads",
    "C61_spin2",
    "C61_pure_e",
    "C61_negative_spin",
    "C61_negative_spin_refuted",
    "C61_real_sqrt"
   ],
   "note": "Rows may be distributed over the threads in any way. C61_spin2 and C61_pure_e fix the convention; C61_negative_spin_refuted shows that negative spins, which the class accepts, are not rotated."
  },
  {
   "property": "C62",
   "status": "partial",
   "theorems": [
    "C62_bandpowers",
    "C62_scalar",
    "C62_spin",
    "C62_empty_band",
    "C62_asymmetric_range_refuted",
    "C62_real_roots"
   ],
   "note": "Proved when the excluded ky range does not distinguish ky from -ky (C62_bandpowers, C62_scalar, C62_spin), for bands without gaps and any order of the threads. C62_asymmetric_range_refuted: otherwise wrong coefficients are read. For bands with gaps see C10_gap_refuted."
  },
  {
   "property": "C63",
   "status": "partial",
   "theorems": [
    "C63_decouple_solves",
    "C63_no_bias",
    "C63_guards",
    "C63_threads",
    "C63_accepts",
    "C63_cells",
    "C63_round_trip",
    "C63_quick_round_trip",
    "C63_straddling_ring_refuted",
    "C63_outer_modes_refuted"
   ],
   "note": "Decoupling solves the system exactly (C63_decouple_solves). The round trip through couple_cell holds when each ring of width one fundamental mode lies in one band and no mode of a band falls in the last, incomplete ring (C63_round_trip); otherwise it is refuted: C63_straddling_ring_refuted and C63_outer_modes_refuted. The quick routine of the C library has no such restriction (C63_quick_round_trip). Pixel-wise transforms are M_Flat; no templates, no purification."
  },
  {
   "property": "C64",
   "status": "proved",
   "theorems": [
    "C64_apodization_ignores_height",
    "C64_apodization_refuted",
    "C64_apodization_square",
    "C64_purification_refuted"
   ],
   "note": "Apodisation: C64_apodization_square (square pixels) and C64_apodization_refuted with C64_apodization_ignores_height (the code uses the width of a pixel for its height). Purification: C80_no_leakage for square pixels; C64_purification_refuted: for every other geometry of at least 3x3 pixels there are maps without B modes whose purified field has some."
  },
  {
   "property": "C65",
   "status": "partial",
   "theorems": [
    "C65_determined",
    "C65_one_thread",
    "C65_shared_streams",
    "C65_thread_count_refuted",
    "C65_arrival_refuted",
    "C65_distinct_seeds_refuted",
    "C65_spherical_ignores_seed",
    "C65_spherical_seed_refuted"
   ],
   "note": "For a fixed division of the rows and fixed thread numbers the maps are determined (C65_determined); with one thread they depend on nothing else (C65_one_thread). The claim itself is false of the code: C65_thread_count_refuted, C65_arrival_refuted (order in which threads ask for their number), C65_distinct_seeds_refuted with C65_shared_streams (adjacent seeds share streams), C65_spherical_ignores_seed and C65_spherical_seed_refuted. The generator is an arbitrary function of the seed and the position in the stream."
  },
  {
   "property": "C66",
   "status": "proved",
   "theorems": [
    "C66_other_component"
   ],
   "note": ""
  },
  {
   "property": "C67",
   "status": "proved",
   "theorems": [
    "C67_different_lmax"
   ],
   "note": ""
  },
  {
   "property": "C68",
   "status": "proved",
   "theorems": [
    "C68_uniform_mask"
   ],
   "note": ""
  },
  {
   "property": "C69",
   "status": "proved",
   "theorems": [
    "C69_rotation"
   ],
   "note": "At the level of NmtField._purify."
  },
  {
   "property": "C70",
   "status": "proved",
   "theorems": [
    "C70_weights"
   ],
   "note": "At the level of NmtField._purify; the sphere's calculus itself (spin-raising operators) is not formalised: the derivatives of the mask are those defined by multiplying its multipoles by -sqrt(l(l+1)) and sqrt((l+2)!/(l-2)!)."
  },
  {
   "property": "C71",
   "status": "proved",
   "theorems": [
    "C71_rotation_first",
    "C71_rotation_second",
    "C71_rotation_third",
    "C71_rotation_fourth"
   ],
   "note": ""
  },
  {
   "property": "C72",
   "status": "proved",
   "theorems": [
    "C72_full_sky",
    "C72_full_sky_low"
   ],
   "note": "Wigner-3j at l1 = 0 and libm obey their textbook laws (hypothesis laws, met by the real numbers in P_MCM3)."
  },
  {
   "property": "C73",
   "status": "partial",
   "theorems": [
    "C73_variance_nonneg",
    "C73_ee_bb",
    "C73_cauchy_schwarz_refuted"
   ],
   "note": "Variances are proved non-negative. The second half is refuted (C73_cauchy_schwarz_refuted, C73_ee_bb): for a field with E modes only BB has no variance but a negative covariance with EE, so that the matrix is not positive semi-definite; any mask whose squared spectrum has power at l = 1 shows it."
  },
  {
   "property": "C74",
   "status": "partial",
   "theorems": [
    "C74_ring_query",
    "C74_full_ring",
    "C74_ring_query_refuted"
   ],
   "note": "Proved when the interval leaves more than one pixel spacing free (C74_ring_query) or is the whole ring (C74_full_ring). In between pixels get lost: C74_ring_query_refuted."
  },
  {
   "property": "C75",
   "status": "proved",
   "theorems": [
    "C75_history",
    "C75_rejected",
    "C75_failed"
   ],
   "note": ""
  },
  {
   "property": "C76",
   "status": "proved",
   "theorems": [
    "C76_given_workspace",
    "C76_new_workspace",
    "C76_neither",
    "C76_incompatible",
    "C76_wrong_shape"
   ],
   "note": "Uses the models of the three steps; C76_incompatible, C76_wrong_shape and C76_neither give the guards."
  },
  {
   "property": "C77",
   "status": "proved",
   "theorems": [
    "C77_mean",
    "C77_unbiased",
    "C77_couple_cell",
    "C77_ensemble_exists",
    "C77_real_roots"
   ],
   "note": "Scalar fields without templates. The ensemble is any finite weighted family of maps with the covariance of an isotropic field (C77_ensemble_exists builds one for every spectrum). Excluded ky ranges must not distinguish ky from -ky (see C62_asymmetric_range_refuted). Exact roots of unity: hom_roots and conj_roots, which hold over the reals (C77_real_roots, C62_real_roots). For couple_cell the spectrum must be constant on its rings and vanish outside them, see C63."
  },
  {
   "property": "C78",
   "status": "proved",
   "theorems": [
    "C78_covariance",
    "C78_master_unbiased",
    "C78_white_exists",
    "C78_real",
    "C78_nyquist_refuted"
   ],
   "note": "Scalar fields. Draws are any finite weighted ensemble with unit second moments (white; C78_white_exists). The matrix root and sqrt(2) are exact, over the reals C78_real discharges this and all trigonometric hypotheses for one field and odd dimensions. For even dimensions the spectrum has to vanish at the Nyquist modes, where the code gives half the power: C78_nyquist_refuted."
  },
  {
   "property": "C79",
   "status": "proved",
   "theorems": [
    "C79_exact",
    "C79_ensemble_exists",
    "C79_bin_b_ignored",
    "C79_cuts_refuted",
    "C79_bin_b_refuted"
   ],
   "note": "Gaussianity is the hypothesis that fourth moments satisfy Wick's formula; C79_ensemble_exists builds finite ensembles that meet it for every map size. Scalar maps, constant spectra, all modes kept and one binning. Refuted without the last two: C79_cuts_refuted, C79_bin_b_refuted, C79_bin_b_ignored."
  },
  {
   "property": "C80",
   "status": "proved",
   "theorems": [
    "C80_no_leakage",
    "C80_bandpowers",
    "C80_other_component",
    "C80_needed",
    "C80_real_roots",
    "C80_real_sqrt"
   ],
   "note": "Exact arithmetic. C80_no_leakage/C80_bandpowers need square pixels and band limits (2(bx+cx) < nx, 2(by+cy) < ny); C64_purification_refuted shows that square pixels are needed. The roots of unity and the square root are characterised by hypotheses that hold over the real numbers: C80_real_roots, C80_real_sqrt. Not stated for templates with purification except C80_other_component."
  },
  {
   "property": "C82",
   "status": "proved",
   "theorems": [
    "C82_bias",
    "C82_isotropic",
    "C82_full_master",
    "C82_unbiased"
   ],
   "note": "Exact arithmetic, finite weighted ensembles. The statistics of the maps enter as the hypothesis `correlated` (the mean of m1<h,m2> is h filtered by the guess spectra); C82_isotropic proves it for isotropic scalar maps; for spins it is a hypothesis. C82_unbiased is end to end for scalar maps with spectra constant in the bands. Fields made with masked_on_input or lite are not covered."
  },
  {
   "property": "C83",
   "status": "proved",
   "theorems": [
    "C83_steps",
    "C83_default",
    "C83_single_band_refuted",
    "C83_lite_refuted",
    "C83_other_workspace_refuted"
   ],
   "note": "Equality of successful results (the kinds of error may differ). A given workspace has the geometry, number of bands and of spectra of the fields. Refuted without: C83_single_band_refuted, C83_lite_refuted, C83_other_workspace_refuted."
  },
  {
   "property": "C81",
   "status": "proved",
   "theorems": [
    "C81_orthogonal",
    "C81_invariant",
    "C81_masked_input",
    "C81_outside_mask",
    "C81_lite",
    "C81_plain",
    "C81_invariant_purified",
    "C81_vanishing_template_refuted",
    "C81_faint_template_refuted"
   ],
   "note": "Exact arithmetic; the eigen-decomposition is an oracle assumed exact, dropped eigenvalues assumed zero (exact_solver) or none dropped (all_kept, for purified fields). C81_vanishing_template_refuted and C81_faint_template_refuted: both assumptions are needed. C81_masked_input and C81_outside_mask are without purification."
  },
  {
   "property": "C84",
   "status": "proved",
   "theorems": [
    "C84_round_trip",
    "C84_decouple_same",
    "C84_couple_same",
    "C84_second_generation",
    "C84_failures",
    "C84_couple_rounding_refuted",
    "C84_sizes_not_checked_refuted"
   ],
   "note": "Exact arithmetic; CFITSIO is a list of units, tables and images store doubles exactly, keywords are rounded by an arbitrary function rnd. LU factors are those of an oracle with lu_laws. C84_couple_same needs exact keywords; refuted without: C84_couple_rounding_refuted. Malformed files: C84_sizes_not_checked_refuted."
  },
  {
   "property": "C85",
   "status": "proved",
   "theorems": [
    "C85_round_trip",
    "C85_covariance_same",
    "C85_force_spin0",
    "C85_force_spin0_rejects",
    "C85_old_format",
    "C85_failures",
    "C85_flat_round_trip",
    "C85_flat_failures",
    "C85_other_kind",
    "C85_rows_not_checked_refuted",
    "C85_opposite_spins_refuted"
   ],
   "note": "lmax >= 0. CFITSIO as in C84. Refuted parts: C85_rows_not_checked_refuted (malformed files), C85_opposite_spins_refuted (spins that add up to zero)."
  },
  {
   "property": "C86",
   "status": "proved",
   "theorems": [
    "C86_mean",
    "C86_couple_cell",
    "C86_unbiased",
    "C86_no_parity_mixing",
    "C86_parity_unbiased",
    "C86_ensemble_exists",
    "C86_mirror_masks",
    "C86_chiral_mask_refuted"
   ],
   "note": "No purification or templates; n_cls = n1*n2 (not the 7-spectra TEB case). The ensemble is any finite weighted family with the covariance of isotropic fields of the two spins (C86_ensemble_exists builds one for all spectra); no power at the Nyquist rows and columns; square roots need only the right sign (sqrt_sign); exact roots of unity. C86_unbiased needs masks whose cross-spectrum is mirror symmetric (C86_mirror_masks); C86_parity_unbiased holds for all masks with spins of equal parity; refuted for other masks: C86_chiral_mask_refuted."
  },
  {
   "property": "C87",
   "status": "proved",
   "theorems": [
    "C87_mean",
    "C87_couple_cell",
    "C87_unbiased",
    "C87_no_parity_mixing",
    "C87_parity_unbiased",
    "C87_no_mixing",
    "C87_ensemble_exists"
   ],
   "note": "Purification is exact only for square pixels and for band-limited maps and masks (hypotheses room and purifiable, as in C80; C87_ensemble_exists builds such an ensemble for all band-limited spectra). No templates; n_cls = n1*n2; real square root, exact roots of unity; no power at the Nyquist rows and columns. C87_unbiased needs mirror-symmetric masks, C87_parity_unbiased spins of equal parity."
  },
  {
   "property": "C88",
   "status": "partial",
   "theorems": [
    "C88_runs",
    "C88_exact",
    "C88_EE_BB_refuted",
    "C88_EB_refuted",
    "C88_sign_refuted",
    "C88_bandpowers",
    "C88_ensemble_exists"
   ],
   "note": "Spins 0 and 2, no cuts, no purification or templates, exact roots of unity, products of mode numbers and matrix sizes within 32 bits. C88_exact for all elements unless all spins are 2; odd-parity elements need mirror-symmetric products of the masks. For four spin-2 fields the claim is false: C88_EE_BB_refuted, C88_sign_refuted, C88_EB_refuted; the ensemble exists for all sizes and amplitudes (C88_ensemble_exists)."
  },
  {
   "property": "C89",
   "status": "partial",
   "theorems": [
    "C89_complete",
    "C89_complete_clear",
    "C89_apodization",
    "C89_returns",
    "C89_pole_refuted"
   ],
   "note": "C89_complete, C89_complete_clear: the disc query; C89_apodization: the documented window without the hypothesis complete of C58; C89_returns: no overflow for scales of 50 to 150 degrees and nside up to 4096. nside up to 40000000, pixel centres as in chealpix (healpix_centres), real numbers (axioms of the reals). False near the poles: C89_pole_refuted. Not proved: that the list is long enough for smaller scales."
  },
  {
   "property": "C90",
   "status": "proved",
   "theorems": [
    "C90_count",
    "C90_values",
    "C90_top",
    "C90_modes"
   ],
   "note": "C90_count, C90_values, C90_top, C90_modes; fsqrt and trunc are a square root and a rounding towards zero (both laws are hypotheses, met by the real functions: real_case)."
  },
  {
   "property": "C91",
   "status": "proved",
   "theorems": [
    "C91_correlation",
    "C91_variance",
    "C91_white",
    "C91_bounded"
   ],
   "note": "C91_correlation, C91_variance, C91_white, C91_bounded. Exact calculation (no Toeplitz approximation), lmax < 46340. Nothing is assumed about the 3j symbols: drc3jj_000 is modelled down to the table of log-factorials; only the laws of sqrt, exp and log are hypotheses (met by the real functions: libm_lawsR). The product formula for Legendre polynomials is proved in L_Legendre.v."
  },
  {
   "property": "C92",
   "status": "proved",
   "theorems": [
    "C92_symbols",
    "C92_unique",
    "C92_improper",
    "C92_in_coupling",
    "C92_scalar_row",
    "C92_scalar",
    "C92_routines_agree",
    "C92_exists",
    "C92_exchange",
    "C92_reflection",
    "C92_parity_zero",
    "C92_diagonal",
    "C92_all",
    "C92_full_sky",
    "C92_anisotropic_symmetric",
    "C92_isotropic_limit"
   ],
   "note": "C92_symbols, C92_unique, C92_improper, C92_in_coupling for every row that satisfies the defining relations (is_row); C92_exists (Racah's formula, real numbers): there is one for all admissible quantum numbers; C92_exchange, C92_reflection, C92_parity_zero, C92_diagonal, C92_all: its symmetries; C92_full_sky, C92_anisotropic_symmetric, C92_isotropic_limit: C24 and C25 with these symbols. C92_scalar_row, C92_scalar, C92_routines_agree: closed form for m2 = m3 = 0. Restriction: rows without a non-zero symbol below the cut-off of about 1e-154 (moderate; proved for m2 = m3 = 0); the effect of rescaling on other rows is not treated. Exact arithmetic."
  },
  {
   "property": "C93",
   "status": "proved",
   "theorems": [
    "C93_maps",
    "C93_full_sky",
    "C93_accepts",
    "C93_field",
    "C93_mean",
    "C93_short_beam_refuted"
   ],
   "note": "C93_accepts, C93_maps, C93_field, C93_mean, C93_full_sky. hp.synalm is an oracle whose outputs have the documented mean products (hypothesis drawn; a concrete distribution in C93_case). The transforms of ducc/healpy are oracles with shapes; C93_field and C93_mean assume that they invert each other on the coefficients drawn. Only the length of the first beam is checked: a shorter later one is accepted and taken as zero beyond its end (C93_short_beam_refuted). The seed is C65."
  },
  {
   "property": "C94",
   "status": "proved",
   "theorems": [
    "C94_mean",
    "C94_truncation",
    "C94_bandpowers",
    "C94_catalog",
    "C94_workspace",
    "C94_workspace_catalog",
    "C94_truncation_refuted",
    "C94_cross",
    "C94_cross_map",
    "C94_correlated",
    "C94_deprojected",
    "C94_deprojected_bandpowers"
   ],
   "note": "C94_mean, C94_truncation (exact bias if lmax_mask is too small), C94_bandpowers: fields on maps; C94_catalog: NmtFieldCatalog; C94_cross, C94_cross_map: cross-spectra of catalogues and of a catalogue with a map; C94_deprojected, C94_deprojected_bandpowers: fields cleaned of templates (C94_correlated: an isotropic sky meets the hypotheses of C44), where the quadrature weights are the pixel areas used in the products of maps (HEALPix without iterations) and the sky is isotropic outside the masks too; C94_workspace, C94_workspace_catalog: compute_coupling_matrix passes the quantities used here to the C library. Hypotheses: scalar fields without purification or anisotropic weights; the transform is a quadrature with weights and functions that obey the addition theorem (harmonic), the same one for signal and mask; the mean is linear (average); lmax < 46340; no Toeplitz approximation. With lmax_mask = lmax the mean of a field with power at lmax differs from the prediction (C94_truncation_refuted). Spin fields on the sphere: not covered (flat sky: C86, C87). Exact arithmetic."
  }
 ]
}