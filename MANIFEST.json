{
 "claims": [
  {
   "property": "C01",
   "status": "proved",
   "theorems": [
    "C01_masks",
    "C01_accepts"
   ],
   "note": "For every token list; also says exactly which lists the macro accepts."
  },
  {
   "property": "C02",
   "status": "proved",
   "theorems": [
    "C02_traits"
   ],
   "note": ""
  },
  {
   "property": "C03",
   "status": "proved",
   "theorems": [
    "C03_geo_sign"
   ],
   "note": "Sign and blade are forced by the relations (cl_eq); uniqueness included."
  },
  {
   "property": "C04",
   "status": "proved",
   "theorems": [
    "C04_table"
   ],
   "note": ""
  },
  {
   "property": "C05",
   "status": "proved",
   "theorems": [
    "C05_wedge_sign"
   ],
   "note": ""
  },
  {
   "property": "C06",
   "status": "proved",
   "theorems": [
    "C06_grade_iter",
    "C06_index_iter",
    "C06_grade_index_iter"
   ],
   "note": ""
  },
  {
   "property": "C07",
   "status": "proved",
   "theorems": [
    "C07_read_after_write",
    "C07_fresh_is_zero"
   ],
   "note": ""
  },
  {
   "property": "C08",
   "status": "partial",
   "theorems": [
    "C08_read_past_end_refuted",
    "C08_out_of_range_reads_partial"
   ],
   "note": "The full claim is refuted: on every valid dense multivector get_by_idx(2^dim) panics (src/coeff_storage.rs:44 compares with > instead of >=). The _partial theorem gives the exact value of every other out-of-range read on all storages."
  },
  {
   "property": "C09",
   "status": "proved",
   "theorems": [
    "C09_equality_floats",
    "C09_equality"
   ],
   "note": ""
  },
  {
   "property": "C10",
   "status": "partial",
   "theorems": [
    "C10_sparse_invariant",
    "C10_mutating_filter_refuted"
   ],
   "note": "Proved for every finite history of API calls with predicates that do not modify values; a filter_inplace/filtered predicate that writes zero through its &mut argument breaks it (refuted)."
  },
  {
   "property": "C11",
   "status": "proved",
   "theorems": [
    "C11_convert_floats",
    "C11_convert",
    "C11_programs_agree"
   ],
   "note": "Programs over the API (expr/eval in Spec_Prog.v); revm, revcm and multivector division are excluded from the program language's agreement theorem because they divide by computed numbers."
  },
  {
   "property": "C12",
   "status": "proved",
   "theorems": [
    "C12_coeff_enumerate",
    "C12_grade_enumerate"
   ],
   "note": ""
  },
  {
   "property": "C13",
   "status": "proved",
   "theorems": [
    "C13_from_vector",
    "C13_extract_vector"
   ],
   "note": ""
  },
  {
   "property": "C14",
   "status": "proved",
   "theorems": [
    "C14_from_indexed_iter"
   ],
   "note": ""
  },
  {
   "property": "C15",
   "status": "proved",
   "theorems": [
    "C15_linear",
    "C15_abelian_group"
   ],
   "note": ""
  },
  {
   "property": "C16",
   "status": "proved",
   "theorems": [
    "C16_mul_is_bilinear_blade_product",
    "C16_ring_laws"
   ],
   "note": ""
  },
  {
   "property": "C17",
   "status": "proved",
   "theorems": [
    "C17_basis_relations"
   ],
   "note": ""
  },
  {
   "property": "C18",
   "status": "proved",
   "theorems": [
    "C18_blade_is_product_of_generators",
    "C18_labels"
   ],
   "note": ""
  },
  {
   "property": "C19",
   "status": "proved",
   "theorems": [
    "C19_universal_property"
   ],
   "note": "Any target ring, any coefficient homomorphism commuting with the generators."
  },
  {
   "property": "C20",
   "status": "proved",
   "theorems": [
    "C20_wedge_is_exterior",
    "C20_wedge_laws",
    "C20_top_grade",
    "C20_vectors_square_to_zero",
    "C20_graded_commutative"
   ],
   "note": ""
  },
  {
   "property": "C21",
   "status": "proved",
   "theorems": [
    "C21_wedge_kernel",
    "C21_fast_wedge_is_naive_wedge"
   ],
   "note": ""
  },
  {
   "property": "C22",
   "status": "proved",
   "theorems": [
    "C22_meet_is_dual_wedge"
   ],
   "note": ""
  },
  {
   "property": "C23",
   "status": "proved",
   "theorems": [
    "C23_dual_undual"
   ],
   "note": ""
  },
  {
   "property": "C24",
   "status": "partial",
   "theorems": [
    "C24_mixed_signature_refuted",
    "C24_uniform_signature_partial",
    "C24_basis_blade_partial"
   ],
   "note": "As documented the claim is refuted: it fails for every signature with two generators of different squares (including PGA). The _partial theorems: all decomposable elements of a uniform signature over formally real fields, and all multiples of basis blades in any signature over any ring."
  },
  {
   "property": "C25",
   "status": "proved",
   "theorems": [
    "C25_rev_coefficients",
    "C25_rev_fixes_scalars_and_vectors",
    "C25_rev_antiautomorphism",
    "C25_rev_additive",
    "C25_revc_antiautomorphism"
   ],
   "note": "rev reverses products over commutative coefficients; revc over any ring with an anti-automorphic conjugation."
  },
  {
   "property": "C26",
   "status": "proved",
   "theorems": [
    "C26_flip",
    "C26_flip_automorphism",
    "C26_flip_subspace",
    "C26_flip_subspace_automorphism"
   ],
   "note": ""
  },
  {
   "property": "C27",
   "status": "proved",
   "theorems": [
    "C27_grade_decomposition",
    "C27_grade_extract_as",
    "C27_sparse_grades",
    "C27_filter"
   ],
   "note": ""
  },
  {
   "property": "C28",
   "status": "proved",
   "theorems": [
    "C28_vdot",
    "C28_mag2",
    "C28_cmag2"
   ],
   "note": ""
  },
  {
   "property": "C29",
   "status": "partial",
   "theorems": [
    "C29_revm_magnitude_refuted",
    "C29_revm_partial",
    "C29_revm_inverts_versors",
    "C29_revcm_partial"
   ],
   "note": "The documented magnitude claim is refuted (s = 1 + e0 in Cl(1)). Proved: revm = rev/mag2, scalar part of revm(s)*s is one, and revm inverts every product of vectors of non-zero mag2. revcm divides by cmag2 (its doc says mag2)."
  },
  {
   "property": "C30",
   "status": "proved",
   "theorems": [
    "C30_repr_pow",
    "C30_fft_pow",
    "C30_pow"
   ],
   "note": "Multivectors of every storage, FFTRepr values of every shape, and pow commutes with fft."
  },
  {
   "property": "C31",
   "status": "proved",
   "theorems": [
    "C31_complex_coefficients",
    "C31_division",
    "C31_division_ring"
   ],
   "note": ""
  },
  {
   "property": "C32",
   "status": "proved",
   "theorems": [
    "C32_hamilton_relations",
    "C32_hamilton_product",
    "C32_conj",
    "C32_norm",
    "C32_same_as_dense"
   ],
   "note": ""
  },
  {
   "property": "C33",
   "status": "proved",
   "theorems": [
    "C33_roundtrip",
    "C33_product",
    "C33_sum",
    "C33_one",
    "C33_metric",
    "C33_coefficients"
   ],
   "note": "Between any two storages, for real and complex coefficients; also gives the exact coefficients (a factor -i per negative generator) and the metric of the complexified algebra."
  },
  {
   "property": "C34",
   "status": "proved",
   "theorems": [
    "C34_even_signature",
    "C34_metric",
    "C34_recovers",
    "C34_product",
    "C34_sum",
    "C34_drops"
   ],
   "note": "Signatures with fewer than 63 generators (the padded algebra must stay below the 64-bit limit). The library has no function for the padding itself; a padded multivector is described by its coefficients."
  },
  {
   "property": "C35",
   "status": "proved",
   "theorems": [
    "C35_iclifft_clifft",
    "C35_clifft_iclifft",
    "C35_bad_length",
    "C35_bad_shape"
   ],
   "note": ""
  },
  {
   "property": "C36",
   "status": "proved",
   "theorems": [
    "C36_matrix_product",
    "C36_multivectors",
    "C36_additive",
    "C36_one"
   ],
   "note": ""
  },
  {
   "property": "C37",
   "status": "proved",
   "theorems": [
    "C37_parity_flip",
    "C37_imaginary_flip",
    "C37_reversal"
   ],
   "note": ""
  },
  {
   "property": "C38",
   "status": "proved",
   "theorems": [
    "C38_total",
    "C38_roundtrip",
    "C38_onto"
   ],
   "note": "Every signature with fewer than 63 generators (a dense multivector of 63 generators would need 2^63 coefficients). Exact arithmetic over any formally real field; real and complex coefficients. Also: onto for complex coefficients when the number of non-null generators is even."
  },
  {
   "property": "C39",
   "status": "proved",
   "theorems": [
    "C39_product",
    "C39_homomorphism"
   ],
   "note": "As C38; the homomorphism form needs no division, hence any commutative or non-commutative coefficient ring satisfying the conversion laws."
  },
  {
   "property": "C40",
   "status": "proved",
   "theorems": [
    "C40_sum",
    "C40_scaling",
    "C40_units",
    "C40_one_is_unit"
   ],
   "note": ""
  },
  {
   "property": "C41",
   "status": "proved",
   "theorems": [
    "C41_rev",
    "C41_flip"
   ],
   "note": ""
  },
  {
   "property": "C42",
   "status": "proved",
   "theorems": [
    "C42_ntrace",
    "C42_trace",
    "C42_mag2"
   ],
   "note": ""
  },
  {
   "property": "C43",
   "status": "proved",
   "theorems": [
    "C43_repr",
    "C43_real",
    "C43_complex",
    "C43_matrix"
   ],
   "note": "For real and complex coefficients over any formally real field; the array-level theorem also covers arrays that represent no multivector. The norm enters only through nrm 0 = 0. C43_matrix is about matrix_inv itself over any division ring; it is crate-internal, so only square blocks reach it through the API."
  },
  {
   "property": "C44",
   "status": "partial",
   "theorems": [
    "C44_dominant_partial",
    "C44_dominant_complex_partial",
    "C44_matrix_partial",
    "C44_refuted",
    "C44_small_partial",
    "C44_small_repr_partial"
   ],
   "note": "Refuted: matrix_inv gives up when a diagonal entry below the pivot is zero after an elimination step (src/fftrepr/matrix.rs:68-70), e.g. for the generators of Cl(3). The _partial theorems: complete for at most two generators (side <= 2); for any number of generators on multivectors whose scalar part outweighs the other coefficients, and on matrices of any side whose diagonal outweighs the columns (exact rational arithmetic)."
  },
  {
   "property": "C45",
   "status": "proved",
   "theorems": [
    "C45_from_array3",
    "C45_from_array2",
    "C45_into_array2",
    "C45_shape_kept"
   ],
   "note": "inv and exp are covered separately (C43, C54)."
  },
  {
   "property": "C46",
   "status": "proved",
   "theorems": [
    "C46_total",
    "C46_product",
    "C46_one",
    "C46_odd_ignored",
    "C46_faithful"
   ],
   "note": "For every non-degenerate signature below 63 generators; only the left factor needs to be even. Also: the two halves determine an even multivector."
  },
  {
   "property": "C47",
   "status": "proved",
   "theorems": [
    "C47_split_trait",
    "C47_total",
    "C47_product",
    "C47_linear",
    "C47_one",
    "C47_bijective",
    "C47_agrees_with_fft"
   ],
   "note": "Algebra isomorphism onto square matrices over the coefficient ring (bijectivity over a field with 1+1<>0), entrywise equal to fft; also which signatures get the SplitSignature trait."
  },
  {
   "property": "C48",
   "status": "partial",
   "theorems": [
    "C48_roundtrip_partial",
    "C48_origin_partial",
    "C48_origin_quaternion_refuted"
   ],
   "note": "Every point except the origin, all dimensions and storages, exact arithmetic. At the origin the constructor divides by zero: the round trip still holds on dense and sparse storage under the IEEE rules 0/(1/0) = 0/(-1/0) = 0, and fails on quaternion storage (refuted there)."
  },
  {
   "property": "C49",
   "status": "partial",
   "theorems": [
    "C49_translates_partial",
    "C49_inverse",
    "C49_compose",
    "C49_exponential",
    "C49_origin_refuted"
   ],
   "note": "Every point except the origin; t~t = 1, composition of translations and equality with the exponential for all directions. Translating the origin is refuted: with IEEE infinities the coordinates become NaN."
  },
  {
   "property": "C50",
   "status": "partial",
   "theorems": [
    "C50_point",
    "C50_hyperplane",
    "C50_translation_partial",
    "C50_translation_refuted"
   ],
   "note": "Exact for pga_point and pga_hyperplane. Refuted for pga_translation, which accepts every length up to n+1 (src/pga.rs:39-49 has no length check); the _partial theorem says exactly which lengths are rejected and how."
  },
  {
   "property": "C51",
   "status": "proved",
   "theorems": [
    "C51_incidence"
   ],
   "note": "Dense and sparse storage (quaternion storage has no wedge), all dimensions, exact arithmetic."
  },
  {
   "property": "C52",
   "status": "partial",
   "theorems": [
    "C52_64_generators_refuted",
    "C52_usable_partial"
   ],
   "note": "Refuted at exactly 64 generators (accepted by the macro, unusable: debug panics, release yields zero basis vectors). The _partial theorem covers every declared algebra the model calls declared, i.e. fewer than 64 generators."
  },
  {
   "property": "C53",
   "status": "proved",
   "theorems": [
    "C53_nested_calls_total",
    "C53_nested_ring",
    "C53_every_depth"
   ],
   "note": "Any nesting depth, any coefficient ring; nested dense multivectors in one algebra per level."
  },
  {
   "property": "C54",
   "status": "proved",
   "theorems": [
    "C54_taylor",
    "C54_zero",
    "C54_fft_taylor",
    "C54_fft_zero"
   ],
   "note": "Exact arithmetic; the comparison with f64::EPSILON enters through one law (1/k > 2^-52 iff k < 2^52). For all storages and for the transform domain; exp(0) = 1 in both."
  },
  {
   "property": "C55",
   "status": "proved",
   "theorems": [
    "C55_display"
   ],
   "note": "All storages, all flags, any printing of coefficients; a writer that never fails. Display, LowerExp and UpperExp are the same macro; FFTRepr's Display (ndarray's) is not modelled."
  },
  {
   "property": "C56",
   "status": "proved",
   "theorems": [
    "C56_is_zero",
    "C56_approx_eq",
    "C56_precision_zero_differs"
   ],
   "note": "Positive theorems for every precision that zero passes (eps > 0); with precision 0 dense and quaternion storages disagree (refuted for that case, which the English statement excludes)."
  },
  {
   "property": "C57",
   "status": "proved",
   "theorems": [
    "C57_sums",
    "C57_products",
    "C57_zero",
    "C57_one",
    "C57_is_zero",
    "C57_scalars"
   ],
   "note": ""
  },
  {
   "property": "C58",
   "status": "proved",
   "theorems": [
    "C58_nilpotent",
    "C58_commutes"
   ],
   "note": "Exact arithmetic, commutative coefficients; the scale must fit into a usize."
  },
  {
   "property": "C59",
   "status": "proved",
   "theorems": [
    "C59_norm"
   ],
   "note": "Real coefficients; the square root is an abstract multiplicative function."
  },
  {
   "property": "C60",
   "status": "proved",
   "theorems": [
    "C60_f64",
    "C60_f32",
    "C60_complex",
    "C60_programs_never_panic",
    "C60_observers"
   ],
   "note": "Coefficients only satisfy NumLaws (commutative addition with neutral zero, exact negation, exact zero test), proved for IEEE binary32 and binary64 (two zeros and all NaNs identified). Programs as in C11; transforms and exp are covered by C67 and C68, PGA is not."
  },
  {
   "property": "C61",
   "status": "proved",
   "theorems": [
    "C61_linear_programs_agree",
    "C61_linear_ops"
   ],
   "note": "Scaling by t needs 0*t = 0 (finite t), dividing by t needs 0/t = 0."
  },
  {
   "property": "C62",
   "status": "proved",
   "theorems": [
    "C62_product_order",
    "C62_wedge_order",
    "C62_dense_order",
    "C62_quat_order"
   ],
   "note": "Geometric product on every storage; outer product of the sparse storage (dense wedge recursion: totality only)."
  },
  {
   "property": "C63",
   "status": "partial",
   "theorems": [
    "C63_equal_arguments_refuted",
    "C63_storages_agree_refuted",
    "C63_same_order_partial",
    "C63_dense_quat_partial"
   ],
   "note": "Refuted twice: sparse iteration order (hash seed) changes rounding, and dense storage skips zeros which the quaternion storage multiplies by infinity. Partial: same enumeration order, or dense/quaternion with finite coefficients, give identical products."
  },
  {
   "property": "C64",
   "status": "proved",
   "theorems": [
    "C64_transform_programs"
   ],
   "note": "Exact arithmetic. Operations FFTRepr does not offer (dual, gradings, literals, ...) are computed on the multivector and then transformed."
  },
  {
   "property": "C65",
   "status": "proved",
   "theorems": [
    "C65_basis",
    "C65_equality",
    "C65_approx_eq"
   ],
   "note": "basis and == in exact arithmetic; approx_eq for any coefficients. approx_eq zips over equal shapes."
  },
  {
   "property": "C66",
   "status": "proved",
   "theorems": [
    "C66_rev",
    "C66_flip",
    "C66_storages"
   ],
   "note": "Exact arithmetic; needs that the order of f64::max does not matter, that |0| <= 1 and |-c| = |c| (class MaxSym), shown for the rationals."
  },
  {
   "property": "C67",
   "status": "proved",
   "theorems": [
    "C67_arrays",
    "C67_fft",
    "C67_ifft",
    "C67_operations",
    "C67_inv",
    "C67_half_spin",
    "C67_programs"
   ],
   "note": "Nothing is assumed of the conversions between coefficients and complex numbers. Signatures below 63 generators. inv may return None; trace and magnitude may be any number."
  },
  {
   "property": "C68",
   "status": "proved",
   "theorems": [
    "C68_exp",
    "C68_fft_exp",
    "C68_exp_f64",
    "C68_fft_exp_f64"
   ],
   "note": "The general theorems take the first K whose loop coefficient is at most EPSILON; K = 18 is computed in binary64. Memory and the time of the final power are not modelled."
  },
  {
   "property": "C69",
   "status": "proved",
   "theorems": [
    "C69_f64",
    "C69_f32",
    "C69_linear",
    "C69_product",
    "C69_wedge",
    "C69_wedge_storages",
    "C69_dense_wedge",
    "C69_meet",
    "C69_storages_close",
    "C69_subtraction_f64",
    "C69_subtraction_f32"
   ],
   "note": "Standard model (relative error 2^-53 or 2^-24, absolute error half the least positive number) proved for binary64 and binary32 as defined by the standard library's SpecFloat. Nothing is said of coefficients that are infinite or NaN. Inverses: not bounded. Transforms: C71."
  },
  {
   "property": "C70",
   "status": "proved",
   "theorems": [
    "C70_programs",
    "C70_identities",
    "C70_powers"
   ],
   "note": "Fragment: see arith in Spec_RProg.v (no inverses, no filters by value, conjugation of real coefficients only); powers through C70_powers. Hypothesis: every intermediate coefficient is finite."
  },
  {
   "property": "C71",
   "status": "proved",
   "theorems": [
    "C71_round_trip",
    "C71_round_trip_complex",
    "C71_clifft",
    "C71_iclifft"
   ],
   "note": "The entries (coefficients) of the result are assumed finite."
  },
  {
   "property": "C72",
   "status": "proved",
   "theorems": [
    "C72_fast_product",
    "C72_fast_product_complex",
    "C72_fast_slow"
   ],
   "note": "The coefficients of the result are assumed finite. Matrix products are taken to sum in the order of the index, each product and each sum rounded once; ndarray's blocked kernels and fused multiply-add are not modelled."
  },
  {
   "property": "C73",
   "status": "proved",
   "theorems": [
    "C73_widen",
    "C73_narrow",
    "C73_round_trip",
    "C73_round_trip_complex",
    "C73_fast_product",
    "C73_fast_product_complex"
   ],
   "note": "The coefficients of the result are assumed finite. A float has no sign of zero in the model (M_Float.v)."
  },
  {
   "property": "C74",
   "status": "proved",
   "theorems": [
    "C74_series",
    "C74_bound"
   ],
   "note": "Exact rational arithmetic for f64. The scale is assumed to fit into usize. Sizes: any subadditive, submultiplicative size of coefficients (class SizeLaws; shown for the rationals and for complex numbers with |re|+|im|)."
  },
  {
   "property": "C75",
   "status": "proved",
   "theorems": [
    "C75_inverse",
    "C75_rotor"
   ],
   "note": "Exact rational arithmetic for f64; needs the class MaxSym of C66 (exp(-x) uses the same scale)."
  },
  {
   "property": "C76",
   "status": "proved",
   "theorems": [
    "C76_series",
    "C76_agree"
   ],
   "note": "Exact rational arithmetic for f64. Both scales are assumed to fit into usize; the conversion of a real coefficient to a complex number is assumed to keep it."
  },
  {
   "property": "C77",
   "status": "proved",
   "theorems": [
    "C77_sum"
   ],
   "note": "Exact rational arithmetic for f64. The three scales are assumed to fit into usize."
  },
  {
   "property": "C78",
   "status": "proved",
   "theorems": [
    "C78_f64",
    "C78_f32",
    "C78_product",
    "C78_wedge",
    "C78_wedge_storages",
    "C78_meet",
    "C78_moderate",
    "C78_programs",
    "C78_subtraction_f64",
    "C78_subtraction_f32"
   ],
   "note": "Fragment of programs as in C70. Numbers are those the format can hold (bounded mantissa and exponent), as every f64/f32 value is. Transforms are not covered."
  },
  {
   "property": "C79",
   "status": "proved",
   "theorems": [
    "C79_exp",
    "C79_f64",
    "C79_small"
   ],
   "note": "Real coefficients (T = f64). The scale c is assumed to be a finite integer below 2^64, as ceil gives. exp of representations is not covered."
  },
  {
   "property": "C80",
   "status": "proved",
   "theorems": [
    "C80_calls",
    "C80_division_ring",
    "C80_complex_field",
    "C80_quaternion_calls",
    "C80_quaternions",
    "C80_zero_divisors"
   ],
   "note": "T is any commutative formally real field (exact arithmetic)."
  },
  {
   "property": "C81",
   "status": "proved",
   "theorems": [
    "C81_grades",
    "C81_vectors"
   ],
   "note": "Stated contrapositively: a coefficient whose grade is not of that form is zero."
  },
  {
   "property": "C82",
   "status": "proved",
   "theorems": [
    "C82_grades",
    "C82_products",
    "C82_wedge",
    "C82_regressive",
    "C82_metric",
    "C82_pseudoscalar",
    "C82_reflection",
    "C82_compose"
   ],
   "note": "Exact arithmetic in a commutative field. The wedge and regressive products are those of dense and sparse storages (Quaternion has none)."
  },
  {
   "property": "C83",
   "status": "proved",
   "theorems": [
    "C83_points",
    "C83_reflections",
    "C83_motion",
    "C83_translation",
    "C83_incidence"
   ],
   "note": "Exact arithmetic in a commutative field; where hyperplanes are built with pga_hyperplane the field is formally real and the square root vanishes only at zero. The points of C83_translation and C83_incidence include the origin, which C48-C51 exclude because pga_point cannot build it."
  },
  {
   "property": "C84",
   "status": "proved",
   "theorems": [
    "C84_intersection",
    "C84_join"
   ],
   "note": "Exact arithmetic in a commutative field of characteristic other than 2; formally real where pga_hyperplane normalises. A product that vanishes has linearly dependent factors: C85."
  },
  {
   "property": "C85",
   "status": "proved",
   "theorems": [
    "C85_dependent",
    "C85_span",
    "C85_basis"
   ],
   "note": "Exact arithmetic in a commutative field in which 1 + 1 is not zero; storages whose wedge product exists (not Quaternion)."
  },
  {
   "property": "C86",
   "status": "proved",
   "theorems": [
    "C86_top",
    "C86_pairing",
    "C86_star",
    "C86_commute",
    "C86_square"
   ],
   "note": "Any ring of coefficients, commutative or not (the factors of the products keep their order); the wedge products for the storages that have one (not Quaternion)."
  },
  {
   "property": "C87",
   "status": "proved",
   "theorems": [
    "C87_sums",
    "C87_exact",
    "C87_f64",
    "C87_small"
   ],
   "note": "C87_sums is axiom free (partial sums of the cosine and sine series); the other three speak of Coq's real cos, sin, cosh and sinh and depend on the axioms of the real numbers of the standard library (ClassicalDedekindReals.sig_not_dec, sig_forall_dec, functional_extensionality_dep). Real coefficients; t is any real number with t^2 = |s|, t not 0 (s = 0: C58)."
  },
  {
   "property": "C88",
   "status": "proved",
   "theorems": [
    "C88_coeff",
    "C88_gram",
    "C88_mag2"
   ],
   "note": "The quaternion storage has no wedge of its own dimension to speak of (two generators) and is left out; det is the Laplace expansion along the first row, factors in row order, so the first part holds over rings that do not commute."
  },
  {
   "property": "C89",
   "status": "proved",
   "theorems": [
    "C89_frames",
    "C89_unique",
    "C89_centre",
    "C89_all"
   ],
   "note": "revm() is rev() divided by mag2(), as in the code; sandwich and versor are those of C82 (Spec_Sandwich.v)."
  },
  {
   "property": "C90",
   "status": "proved",
   "theorems": [
    "C90_f64",
    "C90_f32",
    "C90_programs",
    "C90_embeddings",
    "C90_programs_f64",
    "C90_equal",
    "C90_assoc",
    "C90_distr"
   ],
   "note": "No division, inverse, exp, power or filter_coeffs in these programs; for the transforms see C91. -0 and 0 are one number in the model."
  },
  {
   "property": "C91",
   "status": "proved",
   "theorems": [
    "C91_round_trip",
    "C91_round_trip_complex",
    "C91_product",
    "C91_product_complex",
    "C91_products_equal",
    "C91_expressions"
   ],
   "note": "The condition is on the sums of the absolute values, which bounds every number the transforms form; C91_limit_ex shows that integers beyond it may not come back."
  }
 ]
}