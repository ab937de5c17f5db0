{
 "claims": [
  {
   "property": "C01",
   "status": "proved",
   "theorems": [
    "C01_unique_representative",
    "C01_residue_range",
    "C01_add",
    "C01_sub",
    "C01_neg",
    "C01_half",
    "C01_mul2",
    "C01_mul3",
    "C01_mul4",
    "C01_mul8",
    "C01_constants"
   ],
   "note": ""
  },
  {
   "property": "C02",
   "status": "proved",
   "theorems": [
    "C02_mul",
    "C02_square",
    "C02_square_is_mul"
   ],
   "note": ""
  },
  {
   "property": "C03",
   "status": "proved",
   "theorems": [
    "C03_mul_small"
   ],
   "note": ""
  },
  {
   "property": "C04",
   "status": "proved",
   "theorems": [
    "C04_from_u64",
    "C04_from_u32",
    "C04_from_i32",
    "C04_from_i64"
   ],
   "note": ""
  },
  {
   "property": "C05",
   "status": "proved",
   "theorems": [
    "C05_encode",
    "C05_encode_injective"
   ],
   "note": ""
  },
  {
   "property": "C06",
   "status": "proved",
   "theorems": [
    "C06_decode_accepts",
    "C06_decode_rejects",
    "C06_roundtrip"
   ],
   "note": ""
  },
  {
   "property": "C07",
   "status": "proved",
   "theorems": [
    "C07_decode_reduce"
   ],
   "note": ""
  },
  {
   "property": "C08",
   "status": "proved",
   "theorems": [
    "C08_iszero",
    "C08_equals",
    "C08_select",
    "C08_set_cond",
    "C08_condswap",
    "C08_set_condneg"
   ],
   "note": "masks exact; controls other than 0 and all-ones are outside the documented contract"
  },
  {
   "property": "C09",
   "status": "proved",
   "theorems": [
    "C09_sum_of_products",
    "C09_difference_of_products"
   ],
   "note": ""
  },
  {
   "property": "C10",
   "status": "proved",
   "theorems": [
    "C10_pow_ext",
    "C10_pow_ext_out_of_range",
    "C10_pow_big"
   ],
   "note": ""
  },
  {
   "property": "C11",
   "status": "proved",
   "theorems": [
    "C11_zero_aux",
    "C11_div_exact",
    "C11_div_by_zero",
    "C11_invert_exact",
    "C11_invert_zero"
   ],
   "note": ""
  },
  {
   "property": "C12",
   "status": "proved",
   "theorems": [
    "C12_sqrt_aux",
    "C12_fourth_aux",
    "C12_sqrt_square",
    "C12_sqrt_nonsquare",
    "C12_fourth_root_power",
    "C12_fourth_root_nonpower"
   ],
   "note": ""
  },
  {
   "property": "C13",
   "status": "proved",
   "theorems": [
    "C13_legendre_square",
    "C13_legendre_nonsquare",
    "C13_legendre_zero",
    "C13_legendre_decides"
   ],
   "note": ""
  },
  {
   "property": "C14",
   "status": "proved",
   "theorems": [
    "C14_modulus_prime",
    "C14_modulus_shape",
    "C14_montgomery_constants",
    "C14_algorithm_constants"
   ],
   "note": ""
  },
  {
   "property": "C15",
   "status": "proved",
   "theorems": [
    "C15_add",
    "C15_sub",
    "C15_neg",
    "C15_conj",
    "C15_mul",
    "C15_mul_old_same",
    "C15_square",
    "C15_multiples_aux",
    "C15_multiples",
    "C15_mul_small",
    "C15_half",
    "C15_equals",
    "C15_selection"
   ],
   "note": ""
  },
  {
   "property": "C16",
   "status": "proved",
   "theorems": [
    "C16_div_aux",
    "C16_div0_aux",
    "C16_inv_aux",
    "C16_div_exact",
    "C16_div_by_zero",
    "C16_invert",
    "C16_batch_invert"
   ],
   "note": ""
  },
  {
   "property": "C17",
   "status": "proved",
   "theorems": [
    "C17_aux",
    "C17_sqrt_square",
    "C17_sqrt_nonsquare"
   ],
   "note": ""
  },
  {
   "property": "C18",
   "status": "proved",
   "theorems": [
    "C18_aux",
    "C18_fourth_root_power",
    "C18_fourth_root_nonpower"
   ],
   "note": ""
  },
  {
   "property": "C19",
   "status": "proved",
   "theorems": [
    "C19_encode",
    "C19_encode_injective",
    "C19_decode_accepts",
    "C19_decode_rejects",
    "C19_roundtrip"
   ],
   "note": ""
  },
  {
   "property": "C20",
   "status": "proved",
   "theorems": [
    "C20_aux",
    "C20_legendre_zero",
    "C20_legendre_square",
    "C20_legendre_nonsquare"
   ],
   "note": ""
  },
  {
   "property": "C21",
   "status": "proved",
   "theorems": [
    "C21_pow_big",
    "C21_pow_small",
    "C21_pow_ext",
    "C21_pow_u64",
    "C21_pow_u64_vartime",
    "C21_pow_u64_overlong_refuted"
   ],
   "note": "bit lengths up to 64; C21_pow_u64_overlong_refuted records the wrong result / panic for longer declared bit lengths"
  },
  {
   "property": "C22",
   "status": "proved",
   "theorems": [
    "C22_nqr_nonsquare",
    "C22_rand_nonsquare"
   ],
   "note": ""
  },
  {
   "property": "C23",
   "status": "proved",
   "theorems": [
    "C23_xgcd",
    "C23_xgcd_inverse",
    "C23_xgcd_zero_modulus"
   ],
   "note": ""
  },
  {
   "property": "C24",
   "status": "proved",
   "theorems": [
    "C24_crt"
   ],
   "note": ""
  },
  {
   "property": "C25",
   "status": "proved",
   "theorems": [
    "C25_sqrt_floor_release",
    "C25_sqrt_floor_checked",
    "C25_sqrt_floor_checked_panics"
   ],
   "note": ""
  },
  {
   "property": "C26",
   "status": "proved",
   "theorems": [
    "C26_bsgs_finds",
    "C26_bsgs_sound",
    "C26_bsgs_panics",
    "C26_bsgs_any_base_refuted"
   ],
   "note": ""
  },
  {
   "property": "C27",
   "status": "proved",
   "theorems": [
    "C27_ph_dlp_power",
    "C27_ph_dlp",
    "C27_ph_dlp_sound",
    "C27_zero_exponent"
   ],
   "note": ""
  },
  {
   "property": "C28",
   "status": "partial",
   "theorems": [
    "C28_bidlp_odd",
    "C28_bidlp_refuted",
    "C28_bidlp_odd_panics",
    "C28_bidlp_partial",
    "C28_bidlp_none_partial",
    "C28_bidlp_pow2_partial"
   ],
   "note": "coordinates recovered for R of exact order n with both coordinates nonzero (any n>3), for odd n for R of any order m with n<m^2 and both coordinates nonzero, and for every R of exact order when n=2^e; the full statement is refuted (R=2P for n=4; the basis points themselves for every odd n)"
  },
  {
   "property": "C29",
   "status": "proved",
   "theorems": [
    "C29_limbs",
    "C29_add",
    "C29_sub",
    "C29_neg",
    "C29_infinity",
    "C29_curve_new"
   ],
   "note": ""
  },
  {
   "property": "C30",
   "status": "proved",
   "theorems": [
    "C30_limbs",
    "C30_double",
    "C30_double_iter"
   ],
   "note": ""
  },
  {
   "property": "C31",
   "status": "proved",
   "theorems": [
    "C31_limbs",
    "C31_mul",
    "C31_mul_panics",
    "C31_mul_big",
    "C31_mul_small",
    "C31_zero_length_refuted",
    "C31_zero_length_otherwise"
   ],
   "note": "for a positive bit length; C31_zero_length_refuted records that bit length 0 is not always the scalar 0"
  },
  {
   "property": "C32",
   "status": "proved",
   "theorems": [
    "C32_clear_cofactor",
    "C32_general"
   ],
   "note": "[k]P for every k divisible by 2^e; without divisibility the low bits are dropped (C32_general)"
  },
  {
   "property": "C33",
   "status": "partial",
   "theorems": [
    "C33_point_test",
    "C33_element_test",
    "C33_point_order_partial",
    "C33_element_order_partial",
    "C33_point_order_refuted",
    "C33_element_order_refuted",
    "C33_panics"
   ],
   "note": "exact meaning of the answer for all inputs (C33_point_test, C33_element_test); equals 'order exactly D' when [D]P=O; without that hypothesis refuted (a point of order 2 passes the test for 3)"
  },
  {
   "property": "C34",
   "status": "proved",
   "theorems": [
    "C34_points",
    "C34_elements"
   ],
   "note": "all list lengths and ranges, points and field elements"
  },
  {
   "property": "C35",
   "status": "proved",
   "theorems": [
    "C35_complete",
    "C35_complete_infinity"
   ],
   "note": ""
  },
  {
   "property": "C36",
   "status": "partial",
   "theorems": [
    "C36_isomorphism_partial",
    "C36_shape",
    "C36_equal_coefficients_refuted",
    "C36_homomorphism",
    "C36_opposite_refuted"
   ],
   "note": "proved when A1^2 <> A2^2, A1, A2 <> 0 and u is a square, then also an injective homomorphism on affine points (C36_homomorphism); infinity is sent to a point of order 2; C36_equal_coefficients_refuted and C36_opposite_refuted show the constructor's map is wrong for equal and for opposite coefficients"
  },
  {
   "property": "C37",
   "status": "proved",
   "theorems": [
    "C37_chain",
    "C37_terminates",
    "C37_exponent_zero_refuted",
    "C37_exponents",
    "C37_recompute_refuted"
   ],
   "note": "any field implementation; exponent zero is refuted (never returns or panics); compute_codomain_constants called twice is refuted"
  },
  {
   "property": "C38",
   "status": "proved",
   "theorems": [
    "C38_composition",
    "C38_single",
    "C38_total",
    "C38_basis",
    "C38_sign_lost"
   ],
   "note": "any field implementation; the second image of a basis is determined up to sign"
  },
  {
   "property": "C39",
   "status": "proved",
   "theorems": [
    "C39_hadamard",
    "C39_squared_theta",
    "C39_precomputation",
    "C39_double",
    "C39_double_iter",
    "C39_chi",
    "C39_level22",
    "C39_even_indices",
    "C39_even_index",
    "C39_splitting",
    "C39_splitting_refuted",
    "C39_two_isogeny",
    "C39_double_factors",
    "C39_to_product",
    "C39_split_double",
    "C39_gluing_codomain",
    "C39_gluing_image"
   ],
   "note": "every function of theta.rs below product_isogeny against S_Theta.v; the tenth splitting map is wrong in the code (C39_splitting_refuted)"
  },
  {
   "property": "C40",
   "status": "proved",
   "theorems": [
    "C40_shipped",
    "C40_length",
    "C40_counts",
    "C40_total",
    "C40_independent",
    "C40_naive",
    "C40_invalid_refuted",
    "C40_test_length_refuted"
   ],
   "note": "C40_invalid_refuted and C40_test_length_refuted record panics for lists that are not strategies, among them the call in theta.rs's own test"
  },
  {
   "property": "C41",
   "status": "proved",
   "theorems": [
    "C41_secret_key",
    "C41_output",
    "C41_overflow",
    "C41_strict",
    "C41_output_strict",
    "C41_infinity_refuted",
    "C41_release_trailing",
    "C41_release_refuted"
   ],
   "note": "for all keys and outputs with affine points and entries below 2^656; refuted for the point at infinity and (release build) for strictness of the decoder"
  },
  {
   "property": "C42",
   "status": "proved",
   "theorems": [
    "C42_kani_identity",
    "C42_group_order",
    "C42_factor_lists_prime",
    "C42_degree_products",
    "C42_degrees_divide",
    "C42_degree_constants_refuted"
   ],
   "note": "C42_degree_constants_refuted records that DA, DA1, DA2 do not divide p+1; the other identities are proved"
  },
  {
   "property": "C43",
   "status": "proved",
   "theorems": [
    "C43_normalised",
    "C43_sign",
    "C43_new",
    "C43_value",
    "C43_recover",
    "C43_even_refuted"
   ],
   "note": "for odd logarithms, from the logarithm and from the points (full-order R); an even logarithm is not rejected (C43_even_refuted)"
  },
  {
   "property": "C44",
   "status": "proved",
   "theorems": [
    "C44_equals",
    "C44_isinfinity",
    "C44_to_xy",
    "C44_to_xy_vartime",
    "C44_scaling"
   ],
   "note": ""
  },
  {
   "property": "C45",
   "status": "proved",
   "theorems": [
    "C45_j",
    "C45_j_opposite"
   ],
   "note": ""
  },
  {
   "property": "C46",
   "status": "proved",
   "theorems": [
    "C46_set_xy",
    "C46_set_xyz",
    "C46_on_curve",
    "C46_closed"
   ],
   "note": ""
  },
  {
   "property": "C47",
   "status": "proved",
   "theorems": [
    "C47_addcarry",
    "C47_subborrow",
    "C47_umull",
    "C47_umull_add",
    "C47_umull_add2",
    "C47_umull_x2",
    "C47_umull_x2_add",
    "C47_umull_x2_unbounded_refuted",
    "C47_sgnw",
    "C47_lzcnt"
   ],
   "note": "umull_x2/umull_x2_add exact under the no-128-bit-overflow condition all callers satisfy; unconditional exactness is refuted in C47_umull_x2_unbounded_refuted"
  },
  {
   "property": "C48",
   "status": "proved",
   "theorems": [
    "C48_group",
    "C48_scalars"
   ],
   "note": ""
  },
  {
   "property": "C49",
   "status": "proved",
   "theorems": [
    "C49_iterator",
    "C49_start"
   ],
   "note": ""
  },
  {
   "property": "C50",
   "status": "proved",
   "theorems": [
    "C50_rand_point"
   ],
   "note": ""
  },
  {
   "property": "C51",
   "status": "proved",
   "theorems": [
    "C51_product"
   ],
   "note": ""
  },
  {
   "property": "C52",
   "status": "proved",
   "theorems": [
    "C52_canonical",
    "C52_residues",
    "C52_on_curve_refuted"
   ],
   "note": "C52_on_curve_refuted is the negative half: as the code defines them the constants are not on E0"
  },
  {
   "property": "C53",
   "status": "proved",
   "theorems": [
    "C53_generate_point",
    "C53_generate_random_point",
    "C53_order"
   ],
   "note": "all samples; termination of the search is not claimed (fuel)"
  },
  {
   "property": "C54",
   "status": "proved",
   "theorems": [
    "C54_basis_loop",
    "C54_torsion_basis"
   ],
   "note": "all paths of the loop; what the pair generates is C62"
  },
  {
   "property": "C55",
   "status": "proved",
   "theorems": [
    "C55_weil",
    "C55_determinant"
   ],
   "note": "n > 3; the first argument must have exact order n and be independent of the second; determinant law for two combinations (C55_determinant)"
  },
  {
   "property": "C56",
   "status": "partial",
   "theorems": [
    "C56_kernel_odd",
    "C56_scalar",
    "C56_kernel_partial",
    "C56_own_basis",
    "C56_images"
   ],
   "note": "arithmetic proved in full; through the pairing, in odd order, for images of any orders m with n<m^2 and nonzero coordinates (zero coordinates make the logarithm panic, C28_bidlp_odd_panics)"
  },
  {
   "property": "C57",
   "status": "partial",
   "theorems": [
    "C57_points",
    "C57_independent",
    "C57_basis",
    "C57_E0_points",
    "C57_on_curve_refuted"
   ],
   "note": "the two points are shown on the curve, independent modulo doubling and a basis after clearing the cofactor, whenever the cubic value is not a non-square of the prime field; on curves where it is, the returned points are off the curve (C57_on_curve_refuted). C57_E0_points follows the search on the starting curve; C61_basis meets all its hypotheses on the starting curve"
  },
  {
   "property": "C58",
   "status": "proved",
   "theorems": [
    "C58_scalars",
    "C58_new",
    "C58_total"
   ],
   "note": "C58_scalars is unconditional; C58_new covers every object FESTACrypto::new returns; C58_total: it returns unless a point search panics"
  },
  {
   "property": "C59",
   "status": "proved",
   "theorems": [
    "C59_step"
   ],
   "note": "for curves with rational 2-torsion and A+2 a square (E0 is one, and the class is closed under the isogenies)"
  },
  {
   "property": "C60",
   "status": "proved",
   "theorems": [
    "C60_chain",
    "C60_evaluate",
    "C60_torsion",
    "C60_E0_good"
   ],
   "note": "same class of curves; totality, kernel, additivity up to sign, transport of orders and bases"
  },
  {
   "property": "C61",
   "status": "proved",
   "theorems": [
    "C61_group",
    "C61_torsion",
    "C61_divisible",
    "C61_basis",
    "C61_new"
   ],
   "note": "unconditional for the curve; the d1-basis clause gives orders, independence of the odd-order pair is C62_new"
  },
  {
   "property": "C62",
   "status": "proved",
   "theorems": [
    "C62_accepted",
    "C62_opposite",
    "C62_loop_opposite",
    "C62_torsion_basis",
    "C62_new",
    "C62_basis_refuted"
   ],
   "note": "every odd order, 3 dividing it included; the stronger claim \"returns a basis\" is refuted by C62_basis_refuted"
  },
  {
   "property": "C63",
   "status": "proved",
   "theorems": [
    "C63_kernel",
    "C63_injective",
    "C63_default",
    "C63_random",
    "C63_degrees"
   ],
   "note": "C63_kernel is unconditional for a given basis; C63_default and C63_random assume that p+1 kills the curves met (proved for the starting curve, C61_group)"
  },
  {
   "property": "C64",
   "status": "proved",
   "theorems": [
    "C64_eval",
    "C64_keygen"
   ],
   "note": "as stated, conditional on the odd-order bases computed inside being bases, because the code does not ensure it (C62_basis_refuted); images are up to sign (the sign fix compares pairings, C38); the d2-half of the secret key is C69"
  },
  {
   "property": "C66",
   "status": "proved",
   "theorems": [
    "C66_matrix",
    "C66_recover",
    "C66_reachable"
   ],
   "note": "Recovery of the whole message from the images of the two auxiliary points; the full order of the two odd-order pairings and the form of the images are hypotheses, the latter shown reachable for every message (C66_reachable)."
  },
  {
   "property": "C67",
   "status": "proved",
   "theorems": [
    "C67_select",
    "C67_select_rejects",
    "C67_select_release",
    "C67_inverse",
    "C67_equality"
   ],
   "note": "conditional on what the dimension-two isogeny outputs (its correctness on theta level is C39) and on the pairing condition asserted by debug builds"
  },
  {
   "property": "C65",
   "status": "proved",
   "theorems": [
    "C65_submatrix",
    "C65_base_change",
    "C65_faithful",
    "C65_gluing",
    "C65_zero_gen",
    "C65_zero",
    "C65_kernel"
   ],
   "note": "the base change may be identically zero for unlucky kernels (the code takes one fixed row and does not check); this is a hypothesis, met in C65_ex. The image formula excepts points whose squared dual coordinates 0 and 1 both vanish"
  },
  {
   "property": "C68",
   "status": "proved",
   "theorems": [
    "C68_double",
    "C68_projective",
    "C68_null",
    "C68_isogeny",
    "C68_raw_isogeny",
    "C68_strategy",
    "C68_finish",
    "C68_product_isogeny"
   ],
   "note": "For every null point, strategy and length. The product form assumes that the gluing step's images of the two kernel couples lie on the codomain's surface and commute with their doublings there (checked in the example, a chain of length four over the field with 12289 elements); that every step's kernel is above its dual null point is assumed as in C39."
  },
  {
   "property": "C69",
   "status": "proved",
   "theorems": [
    "C69_keygen",
    "C69_roundtrip",
    "C69_second_half",
    "C69_random_message",
    "C69_bench"
   ],
   "note": "as stated: conditional on the odd-order bases being bases, on full order of the pairing of order d1 on the secret curve, on nonzero coordinates (bidlp panics otherwise) and on the images given by the dimension-two isogeny (C67)"
  },
  {
   "property": "C70",
   "status": "proved",
   "theorems": [
    "C70_raw",
    "C70_last",
    "C70_splitting",
    "C70_components",
    "C70_chain",
    "C70_finish",
    "C70_product_isogeny",
    "C70_zero_refuted",
    "C70_components_refuted"
   ],
   "note": "For every location c, chain length and strategy, under the same step hypotheses as C68. The location c = 0 and the points with second coordinate zero are refuted with witnesses (C70_zero_refuted, C70_components_refuted); that the chain of a FESTA ciphertext ends at c in {1,2,3} is a hypothesis."
  },
  {
   "property": "C71",
   "status": "proved",
   "theorems": [
    "C71_accepted",
    "C71_found",
    "C71_start",
    "C71_two_power"
   ],
   "note": "every basis of 2^e-torsion with e >= 2, and every basis returned by torsion_basis"
  },
  {
   "property": "C72",
   "status": "proved",
   "theorems": [
    "C72_decimal",
    "C72_fp",
    "C72_fp2",
    "C72_fq",
    "C72_point",
    "C72_curve",
    "C72_couple",
    "C72_theta",
    "C72_input",
    "C72_order",
    "C72_point_refuted",
    "C72_isogeny"
   ],
   "note": "printed coordinates, not points: equal points in different projective coordinates are printed differently (C72_point_refuted)"
  },
  {
   "property": "C73",
   "status": "proved",
   "theorems": [
    "C73_fp",
    "C73_fp2",
    "C73_hashcode_refuted"
   ],
   "note": "the hasher itself is not modelled, only the words it is fed"
  },
  {
   "property": "C74",
   "status": "proved",
   "theorems": [
    "C74_reduce",
    "C74_fp",
    "C74_fp2",
    "C74_nonsquare",
    "C74_point",
    "C74_point_retry"
   ],
   "note": "counts the byte blocks; that the generator delivers uniform blocks is the assumption about the generator"
  },
  {
   "property": "C75",
   "status": "proved",
   "theorems": [
    "C75_message",
    "C75_keygen",
    "C75_matrix",
    "C75_secret"
   ],
   "note": ""
  },
  {
   "property": "C76",
   "status": "proved",
   "theorems": [
    "C76_copies",
    "C76_stored"
   ],
   "note": "as stated: under the premises of C69_roundtrip, the one on the dimension-two isogeny stated for the received ciphertext"
  },
  {
   "property": "C77",
   "status": "proved",
   "theorems": [
    "C77_torsion",
    "C77_generate",
    "C77_reject"
   ],
   "note": "counts the draws; that the generator delivers uniform blocks is the assumption about the generator"
  }
 ]
}