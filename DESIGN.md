# Formal model of switch-blade-stuff/dpm in Rocq (Coq 8.16.1)

## 1. What dpm is, and how it is modelled

dpm is a C++20 header library implementing the Parallelism-TS `simd<T,Abi>` / `simd_mask<T,Abi>` types.
A *generic* backend (arrays + loops, `dpm/detail/generic`) and an *x86* backend (arrays of native
SSE/AVX vectors with padding lanes, `dpm/detail/x86`) provide constructors, loads/stores, operators, comparisons,
shuffles, reductions, and a set of math functions working on IEEE-754 bit patterns.

Everything is modelled as total, executable Gallina:

* **UB / out-of-bounds are outcomes**: `res A := Ok a | UB`. Array accesses are bounds-checked (`get`/`set`
  give `UB` outside the array), C++ signed overflow, division by zero, out-of-range shifts, `__builtin_unreachable`,
  falling off the end of a non-void function, and out-of-bounds loads/stores are `UB`.
* **Loops stay loops**: `for (i = 0; i < N; ++i)` is `for_up 0 N body`; each body does checked reads and writes.
* **Elements** are bit patterns (`Z` in `[0,2^w)`), with signed/unsigned views. Wrap-around is explicit.
* **Native vectors** are lists of lanes; an x86 `simd` is a list of native vectors (padding lanes included), and element `i`
  is lane `i mod ext` of vector `i / ext`, as in `operator[]`. Intrinsics are small lane functions (trusted reading of Intel's manual).
* **Build configurations** (SSE2 ... AVX2 preprocessor branches) are a record of booleans (`cfg`), so theorems quantify over builds.
  `DPM_HAS_FMA`, `DPM_HANDLE_ERRORS` and `DPM_PROPAGATE_NAN` are further boolean parameters where the code tests them.
* **Floats** are bit patterns; IEEE arithmetic is Flocq's `binary_float` (round to nearest even, the default MXCSR mode).
  Which NaN an operation returns is left open: every theorem quantifies over a record `nn : nans` of payload choices.

Layers: `Base` (outcomes, arrays, loops, words) - `Cxx` (scalar C++) - `Generic` (generic backend) - `X86Vec`
(intrinsics) - `X86`, `X86Reduce`, `X86Shuffle`, `Alias`, `Abi`, `Cpuid` (x86 backend) - `Fp` (IEEE on bit patterns) - `FMath`,
`FManip`, `FRoute`, `Logb`, `Cvt`, `Round`, `FArith`, `Hypot`, `Log`(+`LogTab`), `Trig`(+`TrigTab`) (math functions).
`Spec.v` and the "Specification" section at the head of each `Prop*.v` hold the vocabulary in which the theorems are stated; it does
not mention the model's helpers. `*Proofs`, `*Lemmas`, `*Lanes`, `*Sem` files are proofs only.

## 2. Plan per property

| id | model | proof |
|----|-------|-------|
| C01-C03 | generic operators as loops over checked arrays; scalar C++ semantics in `Cxx.v` | loop-fill lemma; `_refuted` for `<<=`,`>>=`, mask `~`/unary `-` |
| C04 | generic mask reductions as loops with early exit | loop invariants |
| C05 | `reduce_impl` as recursion on halves | trees over permutations (generalized sum); refuted for N>=4, proved N<=3 |
| C06 | `shuffle` with both fast paths | pointwise lemma over index lists |
| C07 | blend loop | loop-fill |
| C08 | bounded memory, copy loops | frame + bounds theorems |
| C09 | generator constructor with state-passing generator | loop-fill with state |
| C10 | `copy_cast` and conversions on bit patterns | pointwise + round-trip |
| C11,C12 | min/max/clamp, shifts | pointwise; minmax refuted (dangling) |
| C13,C14 | vectorised operators on lists of native vectors | lane/element correspondence for any N and padding |
| C15,C16 | tail masking, movemask, popcount, ctz/clz | bit-mask lemmas; refuted configurations isolated |
| C17,C18 | comparisons, 64-bit emulations, shifts | per-lane arithmetic proofs; refuted shift bugs |
| C19 | native reduce trees with identity fill | generalized sum with identity; refuted fall-through |
| C20 | index-sequence metaprogram + native shuffles | pointwise; refuted OOB padding |
| C21,C22 | blendv/mask_eq, loads/stores | pointwise; OOB refuted |
| C23 | expression language evaluated on both backends | simulation by induction on programs |
| C24 | ABI selection functions | case analysis / arithmetic |
| C25 | reference proxies as get/set histories | induction on histories |
| C26-C29 | bit-level classification, comparisons, signs, nextafter | bit-field arithmetic, connected to Flocq values |
| C30-C38 | frexp, scalbn, ilogb, modf, cvt, rint, round, floor... on Flocq floats | Flocq rounding lemmas |
| C39 | cpuid constructor as a function of an oracle giving register contents | bit reasoning; refuted OSXSAVE=0 |
| C40 | the log kernels with checked table lookups (`UB` outside) | range of the masked index, every bit pattern |
| C41 | the full log kernels (tables and coefficients included) | evaluation of the exceptional branches for every bit pattern |
| C42 | the full trigonometric kernels; library function as parameter outside the vector range | sign-flip lemma for each IEEE operation, lifted through the kernels |
| C43,C49 | hypot (double-double arithmetic), sqrt, rcp | Flocq; case analysis on magnitudes; hypot(x, 0) by an exact error analysis of the split square |
| C44 | fma/fdim/lerp | Flocq's `Bfma_correct`, `Bplus_correct` |
| C45 | min/max native semantics | pointwise; NaN/zero cases refuted |
| C46 | packing/unpacking of exponents | index arithmetic; refuted 256-bit paths |
| C47,C48 | converting loads/stores, aligned and unaligned paths | real-number rounding of the magic-number conversions |
| C50 | arithmetic operators of float vectors | Flocq, IEEE special cases spelled out in `ieee_*` |
| C51, C52 | log1p, log2 kernels | evaluation of the kernels on symbolic exponents; refutations |
| C53 | log, log2, log10 kernels with their tables | argument reduction exact on bits; for each table entry an interval for ln of the entry (Taylor series with remainder in 2^-140 fixed point, checked by the kernel's vm); polynomial error by interval subdivision; forward rounding-error calculus (FErr) over every operation, as an affine function of the exponent; refutations |
| C54,C55 | sin/cos kernels: octant, three-step reduction, polynomials | rounding-error calculus (`FErr.v`), bounds of pi from Machin's formula (`PiBound.v`), Taylor with remainder + interval Horner with subdivision computed in Z (`IvPoly.v`, `SinPoly.v`), octant identities |
| C56 | sin, cos, tan, asin, acos, atan kernels at special arguments | NaN propagation lemmas for every operation, sign of 1 - |x| and 1/2 - |x|/2 under rounding, evaluation at constants for all builds, pi enclosed by Machin's formula |
| C57 | impl_tan, both branches | quotient of the certified sine and cosine (C54/C55) with one rounding; interval bound of the small-argument polynomial |
| C58 | impl_atan, three reduction intervals | Taylor series of atan with remainder, polynomial interval arithmetic for the rational kernel, rounding-error analysis of every operation |
| C59 | impl_asin, both branches | series of asin(sqrt z)/sqrt z, same interval certificates, exactness of 1-|x| (Sterbenz), compensated square root |
| C60 | impl_acos, four cases | from the kernels of C59; acos x = 2 asin(sqrt((1-x)/2)) |
| C61 | generic/math.hpp: one loop per shape (1/2/3 arguments, int/bool results, scalar forms, out-parameters, promotion), names of <cmath> as constants, the library an arbitrary record of functions | loop lemmas (fill, copy_from) by induction on the index |
| C62 | generic rint: array of long between two conversions, UB on out-of-range float-to-long | conversion lemmas of C34/C36; exactness of integers within the format |
| C63 | generic lround, llround, llrint, iround, irint, itrunc with the selection on sizeof | case split on the selected branch; range conditions decide UB exactly |
| C64 | generic loop over x86 operator[] followed by the x86 vector_aligned constructor | reduction to C22 |
| C65 | constant evaluation: mask operator[] with the unreduced index, reductions as loops | induction on the loops; comparison with the generic reductions |
| C66 | hypot of finite operands: scaling by 2^-90/2^90 (float) or 2^-700/2^700 (double), double-precision or split-square evaluation, scaling back | forward error analysis over the reals: exactness of scaling, Veltkamp split with relative bounds, square root of a perturbed argument, one rounding per operation |
| C67 | log1p: u = 1 + x rounded, log(u) + (x - (u - 1)) / u with the branches of log1p.cpp | forward error analysis on top of the log bound (C53): exactness of u - 1 and of the correction, ln(u) + c/u against ln(1 + x) |
| C68 | double rsqrt = rcp(sqrt(x)); float rcp/rsqrt as element-by-element application of an arbitrary estimate function | two relative roundings in the normal range; lane-wise map |
| C69 | constant-evaluated branches of the x86 vector functions: const and non-const operator[], conversion to and from packed_buffer, reduce | loops over an access that fails; reduction to the portable reduce of C05 |
| C70 | frexp followed by the vector ldexp of the exponents it returned | composition of the per-element lemmas of C30 and C31; a value and a sign determine the bit pattern |
| C71 | pairs of calls of floor, ceil, trunc, rint, nearbyint and unary minus | from the per-element specifications of C36/C38 and the injectivity of (value, sign) on finite bit patterns |

## 3. Trusted base

1. Coq 8.16.1's kernel (including `vm_compute`), and coqc/coq_makefile as the build driver. No plugin, no extraction, no native code is relied on.
2. What `Print Assumptions` lists. Theorems fall in two groups (full list in section 6): *closed under the global context*, or exactly the
   standard library's axioms of the real numbers and classical logic used by Flocq and Reals:
   `ClassicalDedekindReals.sig_not_dec`, `ClassicalDedekindReals.sig_forall_dec`,
   `FunctionalExtensionality.functional_extensionality_dep`, `Classical_Prop.classic`.
   No axiom is declared in this development; no Admitted, no functor or module type, no kernel check switched off.
3. The reading of the C++ source and of the Intel intrinsics in the model files. Each definition cites the lines it models. The reading of an
   intrinsic (for instance `_mm_srl_epi64` with a count above 63, `cvttps2dq` out of range, `minps` on NaN and on signed zeros, `movmskps`,
   `pshufb` with the high bit set) is taken from Intel's manual and is not itself checked against hardware.
4. Decimal and hexadecimal literals of `fconst.hpp`/`fconst.cpp` were converted to bit patterns by a script (round to nearest even;
   `T{double literal}` for float is rounded twice, as the compiler does); the tables in `LogTab.v`/`TrigTab.v` are that script's output.
5. Compiler assumptions: floating-point expressions are evaluated in the element type without contraction or reassociation (no `-ffast-math`,
   no implicit FMA), default rounding mode, denormals on (no FTZ/DAZ), two's complement conversions (C++20).

### Modelled
generic/type.hpp (constructors, generators, copies, casts, operators, comparisons, mask logic, reductions, shuffle, blend, min/max/clamp, shifts);
generic/abi.hpp, x86/abi.hpp; alias.hpp; x86/type.hpp, transform.hpp, cmp.hpp, bitwise.hpp, addsub.hpp, muldiv.hpp, minmax.hpp, utility.hpp;
cpuid.hpp/.cpp (run-time feature queries, /proc/cpuinfo scan); x86/class.hpp, mbase.hpp (fma family, fdim, lerp, abs, copysign),
fmanip.hpp with nextafter.cpp, frexp.cpp, modf.cpp, scalbn.cpp, logb.cpp; cvt.hpp; round.hpp; pow.hpp (sqrt, double rcp and rsqrt, hypot; float rcp and rsqrt up to the value of the estimate) with hypot.cpp;
exp.hpp/lut.hpp/log.cpp/log2.cpp/log10.cpp/log1p.cpp; trig.hpp/polevl.hpp/sincos.cpp/tan.cpp/asincos.cpp/atan.cpp; the tables of fconst;
generic/math.hpp (all functions, with `<cmath>` as an arbitrary library; rint/lround/iround/itrunc bit-precisely); constant evaluation of the x86 mask element access and reductions, of vector element access, reduce and conversions.

### Not modelled
* AVX-512 branches, the SVML branches (`DPM_USE_SVML`) and the functions that exist only there: exp, exp2, expm1, pow, cbrt, the hyperbolic
  functions, erf, atan2 (without SVML these calls go through the generic loops of C61/C64).
* `constexpr` evaluation branches (`std::is_constant_evaluated()`) other than the mask reductions of C65 and the vector functions of C69 (there the portable function between the two conversions is arbitrary).
* The values of the approximate instructions rcpps/rsqrtps (implementation-defined within a relative error); C68 covers them as an arbitrary function of the element.
* Code that cannot be instantiated: fmin/fmax (`isunord` called with one argument), masked copies and unsigned ordering comparisons of the x86 backend,
  generic `abs`/`fabs` (math.hpp 30-36), generic scalar `fmin` (198-205), generic `lrint` (912-920), x86 `ext::itrunc`; the `__builtin_sincos` branch (660-688).
* Floating-point exception flags, errno, alignment faults of the aligned intrinsics, allocator/ABI layout, overload resolution and concepts.
* FMA4/XOP; FMA is a boolean that selects fused or two-step evaluation.

## 4. Status

MANIFEST.json gives the status of each property. `proved`: the statement holds of the model for everything it quantifies over. `partial`: either the code
is wrong on part of the domain - then the part where it is right is proved, and a theorem with the suffix `_refuted` proves the defect (in most
cases for *every* input of the remaining part, so that both theorems together decide the property) - or a part is missing, which the note says.
Each theorem is followed by a concrete `Example ..._case` that meets its hypotheses.

seeded/LOG.jsonl records the wrong programs tried against the theorems: each entry is one edit of a model definition, the claim it breaks, and the theorems that failed
(proofs were replayed with failing proofs skipped, so that the list shows exactly which statements are no longer provable by their proofs).

## 5. Findings (each proved as a theorem about the model)

Generic backend: `<<=`/`>>=` with a vector count perform the opposite shift (C01); mask `~` and unary `-` return all-true (C03);
reduce drops element 1 and counts element 0 repeatedly for N >= 4 (C05); minmax returns dangling references (C11); lsr by 0 is undefined (C12); fma is not fused (C44); rint goes through long: undefined for NaN, infinities and large values, and loses -0 (C62);
functions without x86 overload overrun their result array on x86 vectors whose size is not a multiple of the lane count (C64); constant evaluation of mask reductions fails beyond one register, and reduce_max_index never reports 0 (C65); no function returning an x86 vector can be evaluated in a constant expression (C69).

x86 backend: integer `~`, `/`, `%` and emulated `*` access out of bounds when N is not a multiple of the lane count (C13); mask `&&` is always false (C14);
tail masking wrong for 1/2-byte lanes on AVX without AVX2 (C15); reduce_max_index wrong when the last true element is in an incomplete register (C16);
asr of 64-bit lanes by 0<n<32, `>>` of int64 with SSE4.1, vector `>>` compiled as `<<`, swapped compound shifts (C18); int64 multiply/min/max reductions and generic functors
read out of bounds, float min-reduction of +inf with padding gives FLT_MAX (C19); shuffle reads outside storage for partial registers (C20);
vector_aligned copies access past N elements (C22); `^=` and `~` through mask references on non-canonical lanes (C25).

Math: isnormal(NaN) is true, signbit masks are not canonical (C26); islessgreater true on equal operands (C27); integer abs wrong for 64-bit, without SSSE3 and unsigned (C28);
frexp of subnormals off by 6 or 9 (C30); ldexp(1, INT_MAX) = 0 (C31); ilogb(inf) = -1, logb of |x|<1 wrong on SSE4.1/AVX (C32); modf of |x|<1 returns x as integral part (C33);
int64 to double wrong for every negative value on SSE4.1/AVX without AVX2, where only 0 <= x < 2^48 with bits 16..31 zero survive (C34); uint32 to float double rounding, float to uint32 doubled (C35, both with the exact set of right values); lrint limited to int32 (C36); round wrong at half-integers
without SSE4.1 and always zero for 256-bit float (C37); floor/ceil/trunc wrong outside int32 without SSE4.1 (C38); CPU feature bits not masked by OSXSAVE, uninitialised sub-leaf (C39);
log(0) = +inf (C41); hypot(inf, huge) = NaN and tiny operands added (C43, C66); lerp(a,b,0) = NaN when b-a overflows (C44); float min/max differ from std on NaN and zeros (C45);
256-bit ldexp/scalbln exponents routed to the wrong elements (C46); double to int64 limited to 2^51 (C47); alignment flag changes converted values (C48); log1p(x) = 0 for small x (C51);
log2(8) > 3 for double (C52); log2 of subnormals, log10 of large doubles, double log2 wrong from the 40th bit on because its table is indexed with the offset of the log table (C53); double sin/cos return 10^59 above octant 2^16 on SSE4.1/AVX builds and 10^177 near 2^51 (C55); tan(x) is about 0.022 x for every |x| < pi/32, because the coefficients are stored in the opposite order (C57).

## 6. Assumptions per theorem

**Closed under the global context** (no axioms) - 153 theorems:

C01_generic_assign_partial, C01_generic_binary_elementwise, C01_generic_scalar_forms, C01_generic_shift_assign_refuted, C01_generic_shift_assign_swapped, C01_generic_shift_by_scalar, C01_generic_unary, C01_integer_scalar_bitwise, C01_integer_scalar_exact, C01_integer_scalar_modular, C02_generic_compare, C02_generic_not, C02_integer_compare_meaning, C03_generic_mask_assign, C03_generic_mask_binary, C03_generic_mask_bitnot_all_true, C03_generic_mask_bitnot_refuted, C03_generic_mask_not, C04_generic_all_any_none_some, C04_generic_count, C04_generic_first_last_index, C04_scalar_bool_versions, C05_generic_reduce_defined_partial, C05_generic_reduce_ignores_element_1, C05_generic_reduce_partial, C05_generic_reduce_refuted, C06_generic_shuffle, C07_generic_blend, C08_generic_load, C08_generic_masked_load, C08_generic_masked_store, C08_generic_store, C08_generic_store_load, C09_generic_broadcast, C09_generic_generator_elements, C09_generic_generator_order, C10_generic_casts, C10_generic_widen_narrow, C10_integer_cast_value, C11_generic_clamp, C11_generic_min_max, C11_generic_min_max_scalar, C11_generic_minmax_refuted, C11_integer_min_max_clamp_meaning, C12_generic_lsr_zero_refuted, C12_generic_shift_functions_partial, C13_x86_binary_elementwise, C13_x86_integers_wrap, C13_x86_scalar_forms, C13_x86_unary, C13_x86_via_array_partial, C13_x86_via_array_refuted, C14_x86_land_refuted, C14_x86_mask_binary_partial, C14_x86_mask_history_partial, C14_x86_mask_not, C14_x86_noncanonical_refuted, C14_x86_or_any_representation, C15_x86_canonical_masks, C15_x86_mask_reductions_partial, C15_x86_padding_refuted, C15_x86_signbit_refuted, C16_x86_max_index_partial, C16_x86_max_index_refuted, C16_x86_min_index, C17_x86_comparisons_partial, C17_x86_emulated_64bit, C18_x86_asr64_refuted, C18_x86_native_shifts, C18_x86_operators_partial, C18_x86_shift_functions_partial, C18_x86_shift_right_refuted, C19_reduce_bitwise_int, C19_reduce_float_exact, C19_reduce_float_neutral, C19_reduce_float_padded, C19_reduce_functor_refuted, C19_reduce_generic_bounds_refuted, C19_reduce_generic_value_refuted, C19_reduce_max_float, C19_reduce_max_infinity_refuted, C19_reduce_max_int, C19_reduce_min_float, C19_reduce_min_infinity_refuted, C19_reduce_min_int, C19_reduce_minmax_int_refuted, C19_reduce_multiplies_int, C19_reduce_multiplies_int_refuted, C19_reduce_plus_int, C20_shuffle_0_1_3_refuted, C20_shuffle_padding_refuted, C20_shuffle_partial, C21_x86_blend, C22_x86_element_aligned, C22_x86_vector_aligned_partial, C22_x86_vector_aligned_refuted, C23_x86_deterministic, C23_x86_refines_generic, C24_common_assoc, C24_common_attained, C24_common_lub, C24_common_permutation, C24_deduce, C24_deduce_same_storage, C24_deduce_size, C24_hint_kept, C24_native_compatible, C24_never_ambiguous, C24_rebind_resize, C24_storage_characterised, C24_storage_holds_n, C25_x86_mask_references, C25_x86_mask_references_any_partial, C25_x86_noncanonical_refuted, C25_x86_reference_reads, C25_x86_swap, C25_x86_swap_bool, C25_x86_vector_references, C26_signbit_refuted, C28_copysign, C28_copysign_scalar, C28_fabs, C28_iabs_partial, C28_iabs_refuted, C28_neg, C39_avx_without_osxsave_refuted, C39_f16c_refuted, C39_has_iff_cpu_and_os_partial, C39_legacy_avx_unmasked, C39_legacy_sse, C39_linux_sound, C39_linux_split_refuted, C39_reported, C39_subleaf_refuted, C39_vendor, C45_x86_float_min_max_partial, C45_x86_float_refuted, C45_x86_integer_min_max_partial, C61_elementwise_one, C61_elementwise_two, C61_fused_forms, C61_promoted, C61_rcp, C64_generic_on_x86_partial, C64_generic_on_x86_refuted, C65_max_index_refuted, C65_registers_refuted, C65_single_register_partial, C68_float_estimate, C69_reduce_refuted, C69_registers_refuted, C69_single_register_partial, C69_vector_results_refuted

**`ClassicalDedekindReals.sig_forall_dec`, `ClassicalDedekindReals.sig_not_dec`, `Classical_Prop.classic`, `FunctionalExtensionality.functional_extensionality_dep`** - 158 theorems:

C26_isfinite, C26_isinf, C26_isnan, C26_isnormal_partial, C26_isnormal_refuted, C26_signbit, C27_islessgreater_partial, C27_islessgreater_refuted, C27_isunordered, C27_ordered, C29_nextafter, C29_step_and_back, C30_frexp_partial, C30_frexp_subnormal_partial, C30_frexp_subnormal_refuted, C31_ldexp_double_sse41, C31_ldexp_int_max_decided, C31_ldexp_int_max_refuted, C31_ldexp_partial, C31_ldexp_vector_partial, C32_ilogb_float, C32_ilogb_inf_refuted, C32_ilogb_partial, C32_ilogb_subnormal_refuted, C32_logb_negative_refuted, C32_logb_partial, C33_modf_defined, C33_modf_float_undefined_refuted, C33_modf_partial, C33_modf_small_refuted, C34_int64_to_double_partial, C34_int64_to_double_sse41_decided, C34_int64_to_double_sse41_refuted, C34_uint64_to_double, C35_float_to_uint32_decided, C35_float_to_uint32_refuted, C35_uint32_to_float_decided, C35_uint32_to_float_partial, C35_uint32_to_float_refuted, C36_irint, C36_lrint_double_decided, C36_lrint_double_iff, C36_lrint_double_partial, C36_lrint_double_refuted, C36_lrint_float_partial, C36_lrint_float_range_refuted, C36_lrint_float_ub_refuted, C36_rint_double_iff, C36_rint_double_refuted, C36_rint_float, C36_rint_partial, C37_iround_partial, C37_lround_double_partial, C37_lround_float_partial, C37_round_float256_refuted, C37_round_native_partial, C37_round_sse2_decided, C37_round_sse2_partial, C37_round_sse2_range_refuted, C38_native_partial, C38_sse2_decided, C38_sse2_partial, C38_sse2_range_refuted, C38_trunc_double_partial, C38_trunc_no_sse3_refuted, C40_log_tables, C41_log1p_minus_one_refuted, C41_log1p_partial, C41_log_partial, C41_log_zero_refuted, C42_asin_atan_odd, C42_cos_even, C42_sin_odd, C42_sincos_agrees, C42_tan_odd, C43_double_inf_refuted, C43_double_nan_refuted, C43_double_partial, C43_double_tiny_refuted, C43_double_zero, C43_float, C43_float_nan_refuted, C43_symmetric, C44_fdim_partial, C44_fdim_scalar_partial, C44_fdim_zero_refuted, C44_fma_fused_partial, C44_fma_unfused_partial, C44_fma_unfused_refuted, C44_generic_fma_refuted, C44_lerp_one_partial, C44_lerp_refuted, C44_lerp_zero_overflow_refuted, C44_lerp_zero_partial, C46_frexp, C46_ldexp_256_oob_refuted, C46_ldexp_256_refuted, C46_ldexp_partial, C46_scalbln_256_refuted, C46_scalbln_double, C46_scalbln_float_partial, C47_double_to_int64_decided, C47_double_to_int64_iff, C47_double_to_int64_partial, C47_double_to_uint64_decided, C47_double_to_uint64_iff, C47_double_to_uint64_partial, C47_float_to_int32, C47_int32_to_float, C47_large_double_refuted, C48_float_to_int_refuted, C48_int_to_float_paths_agree_partial, C49_rcp_partial, C49_sqrt, C50_scalar, C50_vector, C51_log1p_subnormal_partial, C51_log1p_tiny_refuted, C52_log2_double_refuted, C52_log2_powers_float_partial, C53_log10_double_accuracy_partial, C53_log10_double_refuted, C53_log10_float_accuracy, C53_log2_double_accuracy_partial, C53_log2_double_accuracy_refuted, C53_log2_float_accuracy_partial, C53_log_accuracy_partial, C53_subnormal_refuted, C54_cos_float, C54_sin_float, C54_unfused_error_grows, C55_cos_double_partial, C55_sin_double_partial, C55_sin_double_refuted, C56_ends, C56_invalid, C56_nan, C56_zero, C57_tan_accuracy_partial, C57_tan_small_refuted, C58_atan_accuracy, C59_asin_accuracy, C60_acos_accuracy, C62_rint_partial, C62_rint_range_refuted, C62_rint_sign_refuted, C63_exact_or_undefined, C63_to_integer, C66_hypot_double_partial, C66_hypot_double_refuted, C66_hypot_float, C67_log1p_accuracy, C68_rsqrt_double, C70_frexp_ldexp_partial, C71_bracket_partial, C71_mirror_partial, C71_monotone_partial, C71_rounding_twice_partial
