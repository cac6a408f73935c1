{
 "claims": [
  {
   "property": "C01",
   "status": "partial",
   "theorems": [
    "C01_generic_binary_elementwise",
    "C01_generic_scalar_forms",
    "C01_generic_shift_by_scalar",
    "C01_generic_unary",
    "C01_generic_assign_partial",
    "C01_generic_shift_assign_refuted",
    "C01_generic_shift_assign_swapped",
    "C01_integer_scalar_exact",
    "C01_integer_scalar_modular",
    "C01_integer_scalar_bitwise"
   ],
   "note": "All operators in all forms are elementwise, except <<= and >>= with a vector count, which the code implements as the opposite shift (refuted + exact behaviour proved). generic ++/-- are modelled for T=int only (ill-formed for other T)."
  },
  {
   "property": "C02",
   "status": "proved",
   "theorems": [
    "C02_generic_compare",
    "C02_generic_not",
    "C02_integer_compare_meaning"
   ],
   "note": "All six comparisons and ! for every scalar type; integer meaning proved."
  },
  {
   "property": "C03",
   "status": "partial",
   "theorems": [
    "C03_generic_mask_binary",
    "C03_generic_mask_assign",
    "C03_generic_mask_not",
    "C03_generic_mask_bitnot_refuted",
    "C03_generic_mask_bitnot_all_true"
   ],
   "note": "All operators proved except mask ~ and unary -, which always return all-true (refuted, and exact behaviour proved for every N)."
  },
  {
   "property": "C04",
   "status": "proved",
   "theorems": [
    "C04_generic_all_any_none_some",
    "C04_generic_count",
    "C04_generic_first_last_index",
    "C04_scalar_bool_versions"
   ],
   "note": "Vector and scalar bool versions."
  },
  {
   "property": "C05",
   "status": "partial",
   "theorems": [
    "C05_generic_reduce_partial",
    "C05_generic_reduce_defined_partial",
    "C05_generic_reduce_refuted",
    "C05_generic_reduce_ignores_element_1"
   ],
   "note": "Holds for N <= 3; refuted for N = 4 and shown that element 1 never contributes for any N >= 4 (a[i] = data[0])."
  },
  {
   "property": "C06",
   "status": "proved",
   "theorems": [
    "C06_generic_shuffle"
   ],
   "note": "All index lists in range, including both fast paths."
  },
  {
   "property": "C07",
   "status": "proved",
   "theorems": [
    "C07_generic_blend"
   ],
   "note": "Mask and vector blend (argument order mask, a, b)."
  },
  {
   "property": "C08",
   "status": "proved",
   "theorems": [
    "C08_generic_load",
    "C08_generic_store",
    "C08_generic_store_load",
    "C08_generic_masked_load",
    "C08_generic_masked_store"
   ],
   "note": "Loads, stores, masked forms, frame, bounds, round trip."
  },
  {
   "property": "C09",
   "status": "proved",
   "theorems": [
    "C09_generic_broadcast",
    "C09_generic_generator_order",
    "C09_generic_generator_elements"
   ],
   "note": "Broadcast; generator order and elements with a stateful generator."
  },
  {
   "property": "C10",
   "status": "proved",
   "theorems": [
    "C10_generic_casts",
    "C10_generic_widen_narrow",
    "C10_integer_cast_value"
   ],
   "note": "Any scalar conversion; integer conversions and round trip."
  },
  {
   "property": "C11",
   "status": "partial",
   "theorems": [
    "C11_generic_min_max",
    "C11_generic_min_max_scalar",
    "C11_generic_clamp",
    "C11_integer_min_max_clamp_meaning",
    "C11_generic_minmax_refuted"
   ],
   "note": "min/max/clamp proved; minmax refuted (reads dangling references: UB for every non-empty vector)."
  },
  {
   "property": "C12",
   "status": "partial",
   "theorems": [
    "C12_generic_shift_functions_partial",
    "C12_generic_lsr_zero_refuted"
   ],
   "note": "lsl/asl/asr proved for all counts; lsr proved for n >= 1 and refuted for n = 0 (generic lsr is also ill-formed under strict narrowing rules)."
  },
  {
   "property": "C13",
   "status": "partial",
   "theorems": [
    "C13_x86_binary_elementwise",
    "C13_x86_scalar_forms",
    "C13_x86_unary",
    "C13_x86_integers_wrap",
    "C13_x86_via_array_partial",
    "C13_x86_via_array_refuted"
   ],
   "note": "+ - & | ^ unary - ++ -- and float * / for every N, element type, configuration and padding; integral * natively (SSE4.1, 4 bytes). ~, /, % and the other integral * are right iff N is a multiple of the lane count and an out-of-bounds access otherwise (both proved)."
  },
  {
   "property": "C14",
   "status": "partial",
   "theorems": [
    "C14_x86_mask_binary_partial",
    "C14_x86_mask_not",
    "C14_x86_mask_history_partial",
    "C14_x86_or_any_representation",
    "C14_x86_land_refuted",
    "C14_x86_noncanonical_refuted"
   ],
   "note": "Every mask expression over canonical masks (lanes 0/ones, closed under all operators) except &&, which is proved to be always false; | and || proved on any lane representation; ~ == & ^ refuted on the non-canonical masks signbit() returns."
  },
  {
   "property": "C15",
   "status": "partial",
   "theorems": [
    "C15_x86_mask_reductions_partial",
    "C15_x86_canonical_masks",
    "C15_x86_padding_refuted",
    "C15_x86_signbit_refuted"
   ],
   "note": "Proved for every N/type/configuration/padding under tails_safe and no_neg_zero (always true of canonical masks); refuted outside (AVX without AVX2 with 1-/2-byte lanes; sign-bit-only float masks)."
  },
  {
   "property": "C16",
   "status": "partial",
   "theorems": [
    "C16_x86_min_index",
    "C16_x86_max_index_partial",
    "C16_x86_max_index_refuted"
   ],
   "note": "reduce_min_index proved; reduce_max_index proved when the last true element lies in a complete register and refuted (exact wrong value proved) otherwise."
  },
  {
   "property": "C17",
   "status": "partial",
   "theorems": [
    "C17_x86_comparisons_partial",
    "C17_x86_emulated_64bit"
   ],
   "note": "All six comparisons for signed integers and floats, ==/!= for all types; emulated 64-bit compares proved for all operands. < > <= >= on unsigned vectors do not compile on this backend."
  },
  {
   "property": "C18",
   "status": "partial",
   "theorems": [
    "C18_x86_shift_functions_partial",
    "C18_x86_asr64_refuted",
    "C18_x86_native_shifts",
    "C18_x86_operators_partial",
    "C18_x86_shift_right_refuted"
   ],
   "note": "lsl/asl/lsr for all counts; asr for all but 64-bit with 0<n<32 (refuted for each such n); operators <<, >> proved where correct; the >> defects (logical for int64 with SSE4.1, vector >> compiled as <<, out of bounds for incomplete registers, swapped <<= >>=) proved as such."
  },
  {
   "property": "C19",
   "status": "partial",
   "theorems": [
    "C19_reduce_plus_int",
    "C19_reduce_multiplies_int",
    "C19_reduce_bitwise_int",
    "C19_reduce_min_int",
    "C19_reduce_max_int",
    "C19_reduce_float_exact",
    "C19_reduce_float_padded",
    "C19_reduce_float_neutral",
    "C19_reduce_min_float",
    "C19_reduce_max_float",
    "C19_reduce_multiplies_int_refuted",
    "C19_reduce_functor_refuted",
    "C19_reduce_minmax_int_refuted",
    "C19_reduce_min_infinity_refuted",
    "C19_reduce_max_infinity_refuted",
    "C19_reduce_generic_bounds_refuted",
    "C19_reduce_generic_value_refuted"
   ],
   "note": "Integers: + * & | ^ min max equal the fold over the N elements for every N, type and configuration where the library has a vector version; floats: exact regrouping of the N elements (padding contributes the identity), min/max without NaN. Refuted: int64 multiply, other functors and int64 min/max read out of bounds / uninitialised data, float min of +inf with padding gives FLT_MAX, reduction paths through the generic array code."
  },
  {
   "property": "C20",
   "status": "partial",
   "theorems": [
    "C20_shuffle_partial",
    "C20_shuffle_padding_refuted",
    "C20_shuffle_0_1_3_refuted"
   ],
   "note": "Vectors and masks, any element size, mixed register widths: proved for every index list that fills whole registers or whose padding indices stay in storage; for every other index list the out-of-bounds read is proved (refuted, e.g. shuffle<0,1,3> of 4 floats)."
  },
  {
   "property": "C21",
   "status": "proved",
   "theorems": [
    "C21_x86_blend"
   ],
   "note": "Any non-zero lane counts as true, every configuration."
  },
  {
   "property": "C22",
   "status": "partial",
   "theorems": [
    "C22_x86_element_aligned",
    "C22_x86_vector_aligned_partial",
    "C22_x86_vector_aligned_refuted"
   ],
   "note": "element_aligned proved (bounds, frame, round trip); vector_aligned proved for N a multiple of the lane count and refuted for every other N. Masked and mask copies do not compile on this backend."
  },
  {
   "property": "C23",
   "status": "proved",
   "theorems": [
    "C23_x86_refines_generic",
    "C23_x86_deterministic"
   ],
   "note": "Structured programs with data-dependent branches and loops, all instructions of [supported]; the excluded operations are the defects of C13-C18."
  },
  {
   "property": "C24",
   "status": "proved",
   "theorems": [
    "C24_storage_characterised",
    "C24_never_ambiguous",
    "C24_storage_holds_n",
    "C24_deduce",
    "C24_deduce_same_storage",
    "C24_deduce_size",
    "C24_hint_kept",
    "C24_rebind_resize",
    "C24_native_compatible",
    "C24_common_permutation",
    "C24_common_assoc",
    "C24_common_lub",
    "C24_common_attained"
   ],
   "note": "All N, sizes 1/2/4/8, all builds: overload selection characterised and unambiguous, storage bounds and alignment, deduce with any hints, native/compatible fill one register, common is the least upper bound."
  },
  {
   "property": "C25",
   "status": "partial",
   "theorems": [
    "C25_x86_vector_references",
    "C25_x86_mask_references",
    "C25_x86_mask_references_any_partial",
    "C25_x86_reference_reads",
    "C25_x86_swap",
    "C25_x86_swap_bool",
    "C25_x86_noncanonical_refuted"
   ],
   "note": "All histories of writes through v[i] and m[i] on canonical masks, reads, swaps; = |= &= on any lane representation; ^= and ~ on non-canonical lanes refuted."
  },
  {
   "property": "C26",
   "status": "partial",
   "theorems": [
    "C26_isnan",
    "C26_isinf",
    "C26_isfinite",
    "C26_isnormal_partial",
    "C26_isnormal_refuted",
    "C26_signbit",
    "C26_signbit_refuted"
   ],
   "note": "isnan, isinf, isfinite exact for every bit pattern; signbit exact when read; isnormal proved except on NaN (refuted there: NaN is reported normal); signbit mask lanes are not canonical, so popcount/all_of of it are wrong (refuted)."
  },
  {
   "property": "C27",
   "status": "partial",
   "theorems": [
    "C27_ordered",
    "C27_isunordered",
    "C27_islessgreater_partial",
    "C27_islessgreater_refuted"
   ],
   "note": "isgreater, isgreaterequal, isless, islessequal, isunordered equal the IEEE comparison for all operands; islessgreater proved except on equal operands (refuted there)."
  },
  {
   "property": "C28",
   "status": "partial",
   "theorems": [
    "C28_fabs",
    "C28_neg",
    "C28_copysign",
    "C28_copysign_scalar",
    "C28_iabs_partial",
    "C28_iabs_refuted"
   ],
   "note": "fabs, unary minus, copysign (vector and scalar sign) bit-exact for every pattern including NaN; integer abs proved for signed 1/2/4-byte elements with pabs, refuted for 64-bit elements, without SSSE3, and for unsigned types."
  },
  {
   "property": "C29",
   "status": "proved",
   "theorems": [
    "C29_nextafter",
    "C29_step_and_back"
   ],
   "note": "Every pair of bit patterns: equal, NaN, and the adjacent representable value in the direction of the second operand (no float lies strictly between). One step and one step back gives an equal number (C29_step_and_back)."
  },
  {
   "property": "C30",
   "status": "partial",
   "theorems": [
    "C30_frexp_partial",
    "C30_frexp_subnormal_partial",
    "C30_frexp_subnormal_refuted"
   ],
   "note": "Normal numbers, zeros, infinities and NaN of both formats proved; for every subnormal the exponent is proved to be too small by exactly 6 (float) or 9 (double), i.e. the claim is refuted there."
  },
  {
   "property": "C31",
   "status": "partial",
   "theorems": [
    "C31_ldexp_int_max_decided",
    "C31_ldexp_partial",
    "C31_ldexp_double_sse41",
    "C31_ldexp_int_max_refuted",
    "C31_ldexp_vector_partial"
   ],
   "note": "Correct rounding, overflow and special values proved for all x and every int count below 2^31 - 2^8 (float) / 2^31 - 2^11 (double, 128-bit without SSE4.1), and for every int count of doubles with SSE4.1 or 256-bit registers. The remaining counts next to INT_MAX are decided (C31_ldexp_int_max_decided, iff: right exactly for NaN, infinities and |x| < 2^(2^31 - n - emax + 1); every other x gives zero instead of infinity)."
  },
  {
   "property": "C32",
   "status": "partial",
   "theorems": [
    "C32_ilogb_partial",
    "C32_ilogb_float",
    "C32_ilogb_inf_refuted",
    "C32_ilogb_subnormal_refuted",
    "C32_logb_partial",
    "C32_logb_negative_refuted"
   ],
   "note": "float: ilogb and logb right for every bit pattern on every build. double: NaN, zeros and normals on every build, subnormals and logb of |x| < 1 on builds with a correct int64 conversion; refuted: ilogb(inf) = -1 (every infinity), subnormal ilogb and every normal |x| < 1 of logb on SSE4.1/AVX-only builds."
  },
  {
   "property": "C33",
   "status": "partial",
   "theorems": [
    "C33_modf_defined",
    "C33_modf_partial",
    "C33_modf_small_refuted",
    "C33_modf_float_undefined_refuted"
   ],
   "note": "Finite |x| >= 1, zeros and non-finite values proved; for 0 < |x| < 1 the integral part is x itself (refuted for every such x); float without AVX2 is undefined for |x| < 1 in any lane (refuted)."
  },
  {
   "property": "C34",
   "status": "partial",
   "theorems": [
    "C34_uint64_to_double",
    "C34_int64_to_double_partial",
    "C34_int64_to_double_sse41_refuted",
    "C34_int64_to_double_sse41_decided"
   ],
   "note": "uint64: every value, width and configuration. int64: every value on 128-bit vectors without SSE4.1 and on 256-bit vectors with AVX2; on 128-bit SSE4.1 and 256-bit AVX-only builds decided (iff: right exactly for 0 <= x < 2^48 with bits 16..31 zero; every other value is proved wrong)."
  },
  {
   "property": "C35",
   "status": "partial",
   "theorems": [
    "C35_uint32_to_float_partial",
    "C35_uint32_to_float_refuted",
    "C35_float_to_uint32_refuted",
    "C35_float_to_uint32_decided",
    "C35_uint32_to_float_decided"
   ],
   "note": "Decided in both directions. uint32 to float: every value (iff: the nearest float, except for x in [2^(24+j), 2^(25+j)), 1 <= j <= 7, with x = 2^j + 1 mod 2^(j+2), which are proved wrong). float to uint32: every float that rounds into uint32 (iff: right exactly for -1/8 <= x <= 1/4, 1/2 < x < 3/4 and x = 20971520; e.g. every integral 1 <= n < 2^22 comes out doubled). The claim itself is false, so what is proved is the exact set on which it holds."
  },
  {
   "property": "C36",
   "status": "partial",
   "theorems": [
    "C36_lrint_double_decided",
    "C36_lrint_double_iff",
    "C36_rint_double_iff",
    "C36_rint_partial",
    "C36_rint_float",
    "C36_rint_double_refuted",
    "C36_irint",
    "C36_lrint_double_partial",
    "C36_lrint_double_refuted",
    "C36_lrint_float_partial",
    "C36_lrint_float_ub_refuted",
    "C36_lrint_float_range_refuted"
   ],
   "note": "rint/nearbyint: every bit pattern with SSE4.1 or 256-bit vectors and for float on every build; double without SSE4.1 is decided for every bit pattern (iff: right up to 2^52, and beyond exactly where |x| + 2^52 - 2^52 gives |x| back, e.g. not at odd |x| < 2^53 nor at 2^105). irint<int> of float for every x in range. lrint/llrint: double decided for every value that rounds into int64 (iff: right exactly for -2^51 <= x <= 2^51 + 1/2), float: defined iff the last register is empty or more than half used (out-of-bounds write otherwise), right in the int32 range and -2^31 for every other value (refuted)."
  },
  {
   "property": "C37",
   "status": "partial",
   "theorems": [
    "C37_round_native_partial",
    "C37_round_float256_refuted",
    "C37_round_sse2_partial",
    "C37_iround_partial",
    "C37_lround_double_partial",
    "C37_lround_float_partial",
    "C37_round_sse2_range_refuted",
    "C37_round_sse2_decided"
   ],
   "note": "round: every bit pattern with SSE4.1 (128-bit) and for 256-bit double; 256-bit float returns a zero for every input (refuted); without SSE4.1 right in the int32 range except at every half-integer, where it goes toward zero (refuted); beyond int32 decided for every finite number (iff: right only for the values that round to -2^32 and for the doubles -2^31 - 1 and -2^31 - 3/2). iround and lround/llround: right except at half-integers (refuted)."
  },
  {
   "property": "C38",
   "status": "partial",
   "theorems": [
    "C38_native_partial",
    "C38_sse2_partial",
    "C38_trunc_double_partial",
    "C38_sse2_range_refuted",
    "C38_trunc_no_sse3_refuted",
    "C38_sse2_decided"
   ],
   "note": "Every bit pattern with SSE4.1 or 256-bit vectors; trunc of double with SSE3. Without SSE4.1 ceil, floor and float trunc are decided for every finite number (iff: right value when the integer part fits int32; floor of doubles also at -2^31 - 1); refuted for NaN and infinities (they become a finite negative number); trunc without SSE3 refuted for every 2^-9 <= |x| < 1."
  },
  {
   "property": "C39",
   "status": "partial",
   "theorems": [
    "C39_has_iff_cpu_and_os_partial",
    "C39_reported",
    "C39_legacy_sse",
    "C39_legacy_avx_unmasked",
    "C39_vendor",
    "C39_linux_sound",
    "C39_f16c_refuted",
    "C39_avx_without_osxsave_refuted",
    "C39_subleaf_refuted",
    "C39_linux_split_refuted"
   ],
   "note": "Exact (iff) for every query but F16C when the OS uses XSAVE and the sub-leaf register happens to be 0; SSE family exact without XSAVE; vendor strings; Linux scan sound. Refuted: F16C not masked, AVX/AVX2/FMA/AVX-512 not masked without OSXSAVE, uninitialised sub-leaf, names split across reads."
  },
  {
   "property": "C40",
   "status": "proved",
   "theorems": [
    "C40_log_tables"
   ],
   "note": "log, log2, log10 and log1p of every bit pattern on every build and option set: an access outside a table is undefined behaviour in the model, and the result is always defined."
  },
  {
   "property": "C41",
   "status": "partial",
   "theorems": [
    "C41_log_partial",
    "C41_log_zero_refuted",
    "C41_log1p_partial",
    "C41_log1p_minus_one_refuted"
   ],
   "note": "log/log2/log10: log(1) = +0, NaN, +inf and negative arguments proved; log(+-0) = +inf instead of -inf (refuted for every build). log1p: zeros, NaN, +inf, x < -1 proved; log1p(-1) = +inf refuted."
  },
  {
   "property": "C42",
   "status": "proved",
   "theorems": [
    "C42_sin_odd",
    "C42_cos_even",
    "C42_tan_odd",
    "C42_asin_atan_odd",
    "C42_sincos_agrees"
   ],
   "note": "sin, tan, asin, atan odd and cos even on every build and flag setting; for lanes outside the vector path the same follows from the symmetry of the library function; sincos returns the results of sin and cos"
  },
  {
   "property": "C43",
   "status": "partial",
   "theorems": [
    "C43_double_zero",
    "C43_symmetric",
    "C43_float",
    "C43_float_nan_refuted",
    "C43_double_partial",
    "C43_double_inf_refuted",
    "C43_double_nan_refuted",
    "C43_double_tiny_refuted"
   ],
   "note": "Symmetry of hypot on non-NaN elements (float and double, every build, with and without FMA and DPM_PROPAGATE_NAN). Float: all special cases (infinities, zeros, NaN, sign) proved. Double: special cases proved where they hold and refuted where they fail (hypot(inf, y) = NaN for huge y without DPM_PROPAGATE_NAN, low-payload NaN, operands below 2^-1042 give |x|+|y|). hypot(x, +-0) = |x| bit for bit for every non-NaN double (C43_double_zero). What is not proved is false of the code: the refuted cases."
  },
  {
   "property": "C44",
   "status": "partial",
   "theorems": [
    "C44_fma_fused_partial",
    "C44_fma_unfused_partial",
    "C44_fma_unfused_refuted",
    "C44_fdim_partial",
    "C44_fdim_scalar_partial",
    "C44_fdim_zero_refuted",
    "C44_lerp_zero_partial",
    "C44_lerp_one_partial",
    "C44_lerp_zero_overflow_refuted",
    "C44_lerp_refuted",
    "C44_generic_fma_refuted"
   ],
   "note": "fma/fmadd/fmsub/fnmadd/fnmsub round once on builds with FMA; without FMA fma is right when the product is exact and refuted otherwise. fdim of all finite pairs is the rounded difference or +0, refuted only at fdim(-0,+0) = -0. lerp(a,b,0) = a unless b-a overflows (then NaN: refuted for all such pairs); lerp(a,b,1) = b when b-a is representable, refuted otherwise. Missing: fmin/fmax cannot be instantiated (isunord is called with one argument) and have no model."
  },
  {
   "property": "C45",
   "status": "partial",
   "theorems": [
    "C45_x86_integer_min_max_partial",
    "C45_x86_float_min_max_partial",
    "C45_x86_float_refuted"
   ],
   "note": "Integers: min, max, clamp equal the std functions. Floats: exact behaviour proved (second operand on NaN and on +-0), which differs from std::min/max (refuted)."
  },
  {
   "property": "C46",
   "status": "partial",
   "theorems": [
    "C46_ldexp_partial",
    "C46_scalbln_double",
    "C46_scalbln_float_partial",
    "C46_frexp",
    "C46_ldexp_256_refuted",
    "C46_ldexp_256_oob_refuted",
    "C46_scalbln_256_refuted"
   ],
   "note": "frexp for every N and width; ldexp of float (both widths) and 128-bit double; scalbln of double; scalbln of 128-bit float iff the counts fill an even number of registers (undefined otherwise). 256-bit double ldexp and 256-bit float scalbln refuted."
  },
  {
   "property": "C47",
   "status": "partial",
   "theorems": [
    "C47_int32_to_float",
    "C47_float_to_int32",
    "C47_double_to_int64_partial",
    "C47_double_to_uint64_partial",
    "C47_large_double_refuted",
    "C47_double_to_int64_decided",
    "C47_double_to_int64_iff",
    "C47_double_to_uint64_iff",
    "C47_double_to_uint64_decided"
   ],
   "note": "int32 <-> float for every value; double to int64 decided for every value that rounds into int64 (iff: right exactly for -2^51 <= x <= 2^51 + 1/2); double to uint64 decided for every value that rounds into uint64 (iff: right exactly for -1/4 <= x < 2^52 - 1/2)."
  },
  {
   "property": "C48",
   "status": "partial",
   "theorems": [
    "C48_int_to_float_paths_agree_partial",
    "C48_float_to_int_refuted"
   ],
   "note": "int32 to float and uint64 to double agree for every value; storing float as int refuted (2.75 is stored as 3 or as 2 depending on the flag)."
  },
  {
   "property": "C49",
   "status": "partial",
   "theorems": [
    "C49_sqrt",
    "C49_rcp_partial"
   ],
   "note": "sqrt: all elements, all builds. rcp: double vectors; the float version is the approximate rcpps instruction, whose value the ISA does not fix, so only that it is applied element by element is proved (C68)."
  },
  {
   "property": "C50",
   "status": "proved",
   "theorems": [
    "C50_vector",
    "C50_scalar"
   ],
   "note": "All four operators, vector and scalar forms, every build and bit pattern; which NaN comes out is left open (arbitrary nn)."
  },
  {
   "property": "C51",
   "status": "partial",
   "theorems": [
    "C51_log1p_subnormal_partial",
    "C51_log1p_tiny_refuted"
   ],
   "note": "Positive subnormals with DPM_HANDLE_ERRORS are returned unchanged; refuted: every normal |x| < 2^-25 (float), 2^-54 (double) gives +0."
  },
  {
   "property": "C52",
   "status": "partial",
   "theorems": [
    "C52_log2_powers_float_partial",
    "C52_log2_double_refuted"
   ],
   "note": "float: every normal power of two on every build. double refuted (log2(8) > 3); subnormal powers refuted under C53."
  },
  {
   "property": "C53",
   "status": "partial",
   "theorems": [
    "C53_subnormal_refuted",
    "C53_log10_double_refuted",
    "C53_log10_float_accuracy",
    "C53_log10_double_accuracy_partial",
    "C53_log_accuracy_partial",
    "C53_log2_float_accuracy_partial",
    "C53_log2_double_accuracy_partial",
    "C53_log2_double_accuracy_refuted"
   ],
   "note": "log within 6 epsilon (1 + |ln x|) for every normal number, both formats, every build; log2 the same for floats, but only 2^-37 for doubles; log10 the same for every positive float (subnormals included) and every positive double below 2^970; refuted: log2 of doubles loses 12 bits (error above 2^-40 at 1.05: the log2 table is indexed with the offset of the log table), subnormals (log2 of the smallest number), log10 of every double >= 2^970."
  },
  {
   "property": "C54",
   "status": "proved",
   "theorems": [
    "C54_sin_float",
    "C54_cos_float",
    "C54_unfused_error_grows"
   ],
   "note": "All finite |x| <= 2^22, every build; the |x| * 2^-24 term of builds without FMA is shown to be real (sin(10^6) is off by more than 2^-9)."
  },
  {
   "property": "C55",
   "status": "partial",
   "theorems": [
    "C55_sin_double_partial",
    "C55_cos_double_partial",
    "C55_sin_double_refuted"
   ],
   "note": "Error <= 2^-50 for |x| <= 2^22 (128-bit without SSE4.1, 256-bit with AVX2) and for |x| <= 2^15 on every build. Refuted: sin(131072) = 1.7e59 with SSE4.1 (128-bit) or AVX without AVX2 (256-bit); sin(2247401767174144) = 1.35e177 with AVX2. Missing: 2^22 < |x| where the result is right."
  },
  {
   "property": "C56",
   "status": "proved",
   "theorems": [
    "C56_zero",
    "C56_ends",
    "C56_nan",
    "C56_invalid"
   ],
   "note": "All four groups of special values, every build and option set, sign of zero included; without DPM_HANDLE_ERRORS sin, cos and tan of an infinity are computed by the scalar library function and are not part of the claim."
  },
  {
   "property": "C57",
   "status": "partial",
   "theorems": [
    "C57_tan_accuracy_partial",
    "C57_tan_small_refuted"
   ],
   "note": "Proved for every x in range with |x| >= rnd(pi/32). Refuted for every other finite x, in every build: for |x| < pi/32 the polynomial is evaluated in reversed coefficient order and the result is at most |x|/16 (about 0.022 x), a relative error above 93 percent. Together the two theorems decide the property."
  },
  {
   "property": "C58",
   "status": "proved",
   "theorems": [
    "C58_atan_accuracy"
   ],
   "note": "Every finite float and double, every build; purely relative bound of 8 epsilon."
  },
  {
   "property": "C59",
   "status": "proved",
   "theorems": [
    "C59_asin_accuracy"
   ],
   "note": "Every float and double in [-1,1], every build and option; purely relative bound of 8 epsilon."
  },
  {
   "property": "C60",
   "status": "proved",
   "theorems": [
    "C60_acos_accuracy"
   ],
   "note": "Every float and double in [-1,1], every build and option; purely relative bound of 8 epsilon."
  },
  {
   "property": "C61",
   "status": "proved",
   "theorems": [
    "C61_elementwise_one",
    "C61_elementwise_two",
    "C61_promoted",
    "C61_fused_forms",
    "C61_rcp"
   ],
   "note": "Every function name, every size and argument, for an arbitrary <cmath> library (abs/fabs, the scalar forms of fmin, hypot, atan2, nextafter, and lrint cannot be instantiated or do not exist and are not part of the model)."
  },
  {
   "property": "C62",
   "status": "partial",
   "theorems": [
    "C62_rint_partial",
    "C62_rint_range_refuted",
    "C62_rint_sign_refuted"
   ],
   "note": "Right value for every vector whose rounded elements fit long. Refuted for all others: NaN, infinity or a value outside long anywhere in the vector is undefined behaviour; results of -0 come out as +0. The three theorems decide the property."
  },
  {
   "property": "C63",
   "status": "proved",
   "theorems": [
    "C63_to_integer",
    "C63_exact_or_undefined"
   ],
   "note": "Whenever the value fits; itrunc (and iround/irint for types wider than long) is undefined exactly when one element does not fit."
  },
  {
   "property": "C64",
   "status": "partial",
   "theorems": [
    "C64_generic_on_x86_partial",
    "C64_generic_on_x86_refuted"
   ],
   "note": "Right for every size that is a multiple of the lane count; refuted for every other size and every argument: the N-element result array is read past its end."
  },
  {
   "property": "C65",
   "status": "partial",
   "theorems": [
    "C65_single_register_partial",
    "C65_max_index_refuted",
    "C65_registers_refuted"
   ],
   "note": "Masks that fit one register: right, except that reduce_max_index never returns 0 (refuted for every such mask); masks of more than one register: not a constant expression (out-of-bounds index), refuted for every such mask."
  },
  {
   "property": "C66",
   "status": "partial",
   "theorems": [
    "C66_hypot_float",
    "C66_hypot_double_partial",
    "C66_hypot_double_refuted"
   ],
   "note": "Float: every pair of finite numbers. Double: every pair of which one is at least 2^-1042 in magnitude or zero; for the others the code adds the magnitudes, and C66_hypot_double_refuted shows an error of more than 41% for every pair of equal magnitudes."
  },
  {
   "property": "C67",
   "status": "proved",
   "theorems": [
    "C67_log1p_accuracy"
   ],
   "note": "Every finite x above -1, every build and option. The bound is absolute near 0 (9 epsilons); the relative accuracy there is refuted under C51."
  },
  {
   "property": "C68",
   "status": "proved",
   "theorems": [
    "C68_rsqrt_double",
    "C68_float_estimate"
   ],
   "note": "Double rsqrt: every bit pattern. Float rcp/rsqrt: for an arbitrary estimate function; what the processor guarantees about the estimate is not assumed."
  },
  {
   "property": "C69",
   "status": "partial",
   "theorems": [
    "C69_single_register_partial",
    "C69_reduce_refuted",
    "C69_registers_refuted",
    "C69_vector_results_refuted"
   ],
   "note": "Vectors that fit one register: element reads and reduce of up to 3 elements are right. Refuted: reduce from 4 elements on (element 1 never contributes; 9 instead of 10), anything on vectors of more than one register, and every function that returns a vector, for every size and argument."
  },
  {
   "property": "C70",
   "status": "partial",
   "theorems": [
    "C70_frexp_ldexp_partial"
   ],
   "note": "NaN stays NaN; every zero, infinity and normal number comes back bit for bit (float at any native width, double at 128 bits). Every non-zero subnormal is proved to come back different (last clause of the same theorem). Double ldexp at 256 bits is refuted under C46."
  },
  {
   "property": "C71",
   "status": "partial",
   "theorems": [
    "C71_rounding_twice_partial",
    "C71_mirror_partial",
    "C71_monotone_partial",
    "C71_bracket_partial"
   ],
   "note": "All bit patterns on 256-bit vectors and on builds with SSE4.1. Without SSE4.1 floor, ceil and trunc lose the sign of zero and everything beyond 32 bits (refuted under C38)."
  }
 ]
}