{"id": "C01", "title": "Generic simd operators are elementwise", "statement": "For simd<T, generic Abi> of any size N, every binary/unary arithmetic, bitwise and shift operator (+ - * / % & | ^ << >> ~ unary - ++ --), in vector-vector, vector-scalar and compound-assignment form, yields a vector whose i-th element is the scalar operator applied to the i-th elements, for every i < N, and nothing else changes.", "quantifier": "all N, all element values of every integer width, all operators including compound assignment", "why_tests_cant": "2^(w*N) inputs per operator, N unbounded; tests cover float operators only", "anchors": ["dpm/detail/generic/type.hpp: operator+, operator<<=, operator>>=, operator~ (l.698-987)"]}
{"id": "C02", "title": "Generic simd comparisons are elementwise", "statement": "For simd<T, generic Abi>, a == b, !=, <, <=, >, >= and !a return a simd_mask whose i-th element is exactly the truth value of the scalar comparison of the i-th elements.", "quantifier": "all N, all element values", "why_tests_cant": "infinitely many N and all value pairs", "anchors": ["dpm/detail/generic/type.hpp: operator==...operator>= (l.1000-1051), operator! (l.991)"]}
{"id": "C03", "title": "Generic mask logic is elementwise", "statement": "For simd_mask<T, generic Abi>, ~m, !m, a & b, a | b, a ^ b, a && b, a || b, a == b, a != b and the compound forms compute the boolean operation on every element independently.", "quantifier": "all N and all 2^N (pairs of) masks", "why_tests_cant": "2^2N mask pairs for each N", "anchors": ["dpm/detail/generic/type.hpp: simd_mask operators (l.301-399)"]}
{"id": "C04", "title": "Generic mask reductions", "statement": "all_of / any_of / none_of / some_of hold iff all / at least one / no / some-but-not-all elements are true; reduce_count is the number of true elements; reduce_min_index / reduce_max_index return the first / last index of a true element whenever one exists.", "quantifier": "all N and all 2^N masks", "why_tests_cant": "2^N masks for each N", "anchors": ["dpm/detail/generic/type.hpp: all_of..reduce_max_index (l.404-462)"]}
{"id": "C05", "title": "Generic horizontal reduction uses every element exactly once", "statement": "reduce(x, op) on the generic backend equals op folded over all N elements in some grouping and order, each element being used exactly once (GENERALIZED_SUM); in particular for associative-commutative op it is the sum of all elements.", "quantifier": "all N >= 1, all element values, all binary operations op", "why_tests_cant": "unbounded N and arbitrary user supplied op", "anchors": ["dpm/detail/generic/type.hpp: detail::reduce_impl, reduce, hadd, hmul, hand, hxor, hor (l.596-617, l.1098-1124)"]}
{"id": "C06", "title": "Generic shuffle follows the index list", "statement": "shuffle<Is...>(x) on the generic backend returns a vector with result[j] = x[Is_j] for every position j, for every index list whose indices are in range, including the identity and broadcast fast paths.", "quantifier": "all N, all index lists (of any length) with entries < N, all element values", "why_tests_cant": "N^M index lists per size; tests only try a handful", "anchors": ["dpm/detail/generic/type.hpp: shuffle, detail::shuffle_impl, detail::is_sequential (l.65-70, 123-136, 272, 669)"]}
{"id": "C07", "title": "Blend selects per element", "statement": "blend(a, b, m) returns a[i] where m[i] is true and b[i] where m[i] is false (argument order as documented by the tests), for generic masks and vectors.", "quantifier": "all N, masks and vectors", "why_tests_cant": "2^N masks", "anchors": ["dpm/detail/generic/type.hpp: blend (l.290, 687)", "test/test_blend.cpp"]}
{"id": "C08", "title": "Generic load/store touch exactly the N elements", "statement": "copy_from(mem) loads mem[0..N) and copy_to(mem) writes exactly mem[0..N) leaving all other memory unchanged; a store followed by a load returns the original vector; masked versions read/write exactly the elements whose mask is true; no access is out of the caller's N element buffer.", "quantifier": "all N, all buffers at least N long, all offsets, all masks", "why_tests_cant": "memory-safety over all sizes/offsets", "anchors": ["dpm/detail/generic/type.hpp: copy_from, copy_to (l.214-241, 516-543)"]}
{"id": "C09", "title": "Constructors: broadcast and generator", "statement": "simd(v) makes every element v; simd(gen) calls gen once for each index 0..N-1 in order and element i is gen(i); the same for masks.", "quantifier": "all N, all values, all generators (stateful ones included)", "why_tests_cant": "all generator functions", "anchors": ["dpm/detail/generic/type.hpp: generate_n, constructors (l.82-90,197-200,499-502)", "dpm/detail/x86/type.hpp: generator constructors (l.114-124, 611-621)"]}
{"id": "C10", "title": "Casts between generic vectors convert every element in place", "statement": "simd_cast / static_simd_cast / to_fixed_size / converting operators produce a vector whose i-th element is the i-th source element converted to the destination type; widening then narrowing integer casts give back the source.", "quantifier": "all N, all integer widths and signedness, all values", "why_tests_cant": "all values of all type pairs", "anchors": ["dpm/detail/generic/type.hpp: copy_cast, simd_cast, static_simd_cast (l.92-121, 210, 512, 1131-1157)"]}
{"id": "C11", "title": "Generic min/max/clamp", "statement": "min, max, minmax and clamp return, per element, exactly what std::min/std::max/std::minmax/std::clamp return; the clamp result lies in [lo, hi] when lo <= hi; minmax(a,b) returns defined values.", "quantifier": "all N, all element values of totally ordered T", "why_tests_cant": "all value triples", "anchors": ["dpm/detail/generic/type.hpp: min, max, minmax, clamp (l.1160-1240)"]}
{"id": "C12", "title": "Generic bit shift functions", "statement": "lsl/lsr/asl/asr<n> return per element the logical/arithmetic shift by n of the w-bit pattern, for each 0 <= n < w.", "quantifier": "all widths, shift amounts and values", "why_tests_cant": "all values", "anchors": ["dpm/detail/generic/type.hpp: lsr_impl, asr_impl, lsl.. (l.627-649, 1057-1095)"]}
{"id": "C13", "title": "x86 vector operators refine the elementwise meaning for every size", "statement": "For simd<T, aligned_vector<N,A>> on the x86 backend, +, -, &, |, ^, ~, unary -, ++/--, float * and /, and integer * give in every element i < N the scalar result, for every N including those which are not a multiple of the native vector width, whatever the contents of the padding lanes.", "quantifier": "all N, all lane widths and native widths (128/256), all element values, all padding contents", "why_tests_cant": "padding lanes are unobservable to tests; sizes unbounded", "anchors": ["dpm/detail/x86/type.hpp: operator+ ... operator* (l.777-1080)", "dpm/detail/x86/addsub.hpp", "dpm/detail/x86/muldiv.hpp", "dpm/detail/x86/bitwise.hpp"]}
{"id": "C14", "title": "x86 mask logic refines the elementwise meaning", "statement": "For simd_mask on the x86 backend ~, !, &, |, ^, &&, ||, ==, != and blend act on each element as the boolean operation, for every N and for every mask obtained by any sequence of mask operations.", "quantifier": "all N, all masks reachable by any history of operations", "why_tests_cant": "every history; 2^N masks", "anchors": ["dpm/detail/x86/type.hpp: simd_mask operators (l.265-372), blend (l.236)"]}
{"id": "C15", "title": "x86 mask reductions ignore padding lanes", "statement": "all_of, any_of, none_of, some_of and reduce_count on an x86 mask give the answer for elements 0..N-1 only, whatever the padding lanes hold, for every N, lane width and instruction set (SSE2, SSE4.1, AVX, AVX2).", "quantifier": "all N, all masks, all padding contents, all supported instruction-set configurations", "why_tests_cant": "padding content and N unbounded; needs all build configurations", "anchors": ["dpm/detail/x86/type.hpp: all_of..reduce_count (l.379-510)", "dpm/detail/x86/transform.hpp: maskzero, maskone (l.40-66, 213-313, 441-469, 506-617)"]}
{"id": "C16", "title": "x86 first/last true index", "statement": "reduce_min_index(m) / reduce_max_index(m) on an x86 mask with at least one true element return the smallest / largest index i < N with m[i] true.", "quantifier": "all N, all masks with at least one true element", "why_tests_cant": "2^N masks for each N", "anchors": ["dpm/detail/x86/type.hpp: reduce_min_index, reduce_max_index (l.512-556)"]}
{"id": "C17", "title": "x86 comparisons including 64-bit emulation", "statement": "a == b, !=, <, <=, >, >= of x86 integer vectors set each mask element to the truth of the scalar comparison; the emulated 64-bit equality and signed greater-than used without SSE4.1/4.2 agree with the 64-bit comparison for all 2^128 operand pairs.", "quantifier": "all N, all element values, all instruction-set configurations", "why_tests_cant": "2^128 operand pairs", "anchors": ["dpm/detail/x86/type.hpp: comparisons (l.1175-1294)", "dpm/detail/x86/cmp.hpp: cmp_eq, cmp_gt (l.74-122)"]}
{"id": "C18", "title": "x86 shifts", "statement": "operator<<, operator>> (vector and scalar counts), <<=, >>= and lsl/lsr/asl/asr<n> on x86 vectors give per element the scalar shift (arithmetic for >> and asr on signed types).", "quantifier": "all N, widths, values and in-range shift amounts", "why_tests_cant": "all values and shift counts", "anchors": ["dpm/detail/x86/type.hpp: operator<<, operator>> (l.1085-1170), lsl.. (l.1301-1365)", "dpm/detail/x86/bitwise.hpp: bit_shiftl, bit_shiftr, bit_ashiftr (l.60-259)"]}
{"id": "C19", "title": "x86 horizontal reduction uses every element once and padding never", "statement": "reduce/hadd/hmul/hand/hor/hxor/reduce_min/reduce_max of an x86 vector equal the op folded over exactly the N elements (some grouping and order), with padding lanes not contributing, for every N.", "quantifier": "all N, values, padding contents", "why_tests_cant": "N unbounded, all values", "anchors": ["dpm/detail/x86/type.hpp: reduce, reduce_add ... (l.1371-1560)", "dpm/detail/x86/transform.hpp: reduce (l.106-116,346-374,416-436,489-504,575-592,650-663)"]}
{"id": "C20", "title": "x86 shuffle follows the index list and stays in bounds", "statement": "shuffle<Is...>(x) on x86 returns result[j] = x[Is_j] for every j < length Is, and never reads a native vector outside x's storage.", "quantifier": "all N, all index lists of length <= or > native width, all values", "why_tests_cant": "N^M index lists", "anchors": ["dpm/detail/x86/type.hpp: shuffle (l.726)", "dpm/detail/x86/transform.hpp: shuffle (l.82-103, 338-408, 620-648)"]}
{"id": "C21", "title": "x86 blend", "statement": "blend(a, b, m) on the x86 backend returns a[i] where m[i] is true else b[i] for every element, for every non-zero representation of true and on every instruction-set configuration.", "quantifier": "all N, a, b, m", "why_tests_cant": "all masks/values", "anchors": ["dpm/detail/x86/type.hpp: blend (l.236,747)", "dpm/detail/x86/cmp.hpp: mask_eq (l.220-244)", "dpm/detail/x86/transform.hpp: blendv"]}
{"id": "C22", "title": "x86 load/store stay inside the caller's N elements", "statement": "copy_from/copy_to of an x86 vector read/write exactly mem[0..N) for every flag, and a store followed by a load is the identity.", "quantifier": "all N, flags, buffers", "why_tests_cant": "out-of-bounds accesses are not observable by value tests", "anchors": ["dpm/detail/x86/type.hpp: copy_from, copy_to (l.645-671)", "dpm/utility.hpp: align_data (l.152)"]}
{"id": "C23", "title": "Whole-program refinement: x86 and generic backends agree", "statement": "Any straight-line program over simd/simd_mask values built from constructors and the correct operators gives the same elements on the x86 backend as on the generic backend, whatever the history.", "quantifier": "all programs (operation histories), all N, all initial values", "why_tests_cant": "programs/histories unbounded", "anchors": ["dpm/detail/x86/type.hpp", "dpm/detail/generic/type.hpp"]}
{"id": "C24", "title": "ABI deduction", "statement": "deduce_t<T,N>/native/compatible/common select an ABI whose size is exactly the requested N (or the native size), never a native vector narrower than required, scalar exactly when N = 1 where documented, and common<> is commutative/associative and an upper bound.", "quantifier": "all N, sizeof(T), native vector widths", "why_tests_cant": "infinitely many N", "anchors": ["dpm/detail/generic/abi.hpp: deduce, common (l.65-134)", "dpm/detail/x86/abi.hpp: select_abi, native_abi"]}
{"id": "C25", "title": "Element references", "statement": "Assigning through m[i] / v[i] changes exactly element i and reading it back gives the assigned value; compound assignments through the mask reference act as the boolean operation, on any lane representation.", "quantifier": "all N, i < N, all values, all histories of writes", "why_tests_cant": "all histories", "anchors": ["dpm/detail/alias.hpp: basic_mask", "dpm/detail/x86/type.hpp: operator[]", "dpm/detail/generic/type.hpp: operator[]"]}
{"id": "C26", "title": "Floating-point classification", "statement": "isnan, isinf, isfinite, isnormal, signbit return for every bit pattern the IEEE-754 classification (isnormal is false for NaN, infinities, zeros and subnormals).", "quantifier": "all 2^32 / 2^64 bit patterns", "why_tests_cant": "2^64 inputs", "anchors": ["dpm/detail/x86/class.hpp: isinf_abs, isfinite_abs, isnormal_abs, isnan, signbit"]}
{"id": "C27", "title": "Quiet comparisons", "statement": "isgreater, isgreaterequal, isless, islessequal, islessgreater, isunordered return the IEEE relation for every pair of bit patterns, false on NaN operands (except isunordered).", "quantifier": "all pairs of bit patterns", "why_tests_cant": "2^128 inputs", "anchors": ["dpm/detail/x86/class.hpp: isgreater..isunordered (l.178-286)"]}
{"id": "C28", "title": "Sign manipulation", "statement": "abs/fabs clear exactly the sign bit, unary minus flips exactly the sign bit, copysign(x,s) has x's magnitude bits and s's sign bit, for every bit pattern incl. NaN and infinities; integer abs(x) = |x| wrapped.", "quantifier": "all bit patterns", "why_tests_cant": "2^64 inputs", "anchors": ["dpm/detail/x86/mbase.hpp: abs", "dpm/detail/x86/fmanip.hpp: masksign, copysign", "dpm/detail/x86/addsub.hpp: negate"]}
{"id": "C29", "title": "nextafter", "statement": "nextafter(a,b) = b if a == b; otherwise, for non-NaN a, b, it is the float adjacent to a in the direction of b: strictly beyond a, not beyond b, with no representable value strictly between; NaN if a or b is NaN.", "quantifier": "all pairs of bit patterns (float and double)", "why_tests_cant": "2^128 pairs", "anchors": ["dpm/detail/x86/nextafter.cpp: impl_nextafter"]}
{"id": "C30", "title": "frexp", "statement": "frexp(x) returns y and e with x = y*2^e, 1/2 <= |y| < 1 for every finite non-zero x, and (x, 0) for zeros.", "quantifier": "all finite bit patterns, float and double", "why_tests_cant": "2^64 inputs; tests try no subnormal", "anchors": ["dpm/detail/x86/frexp.cpp: impl_frexp"]}
{"id": "C31", "title": "ldexp/scalbn", "statement": "ldexp(x,n) is x*2^n correctly rounded (nearest even) incl. subnormal results, overflow to signed infinity, zero/inf/NaN returned unchanged, for every x and n.", "quantifier": "all x bit patterns and all int n", "why_tests_cant": "2^96 inputs", "anchors": ["dpm/detail/x86/scalbn.cpp: impl_scalbn", "dpm/detail/x86/except.hpp"]}
{"id": "C32", "title": "ilogb/logb", "statement": "ilogb(x) is the floor of log2|x| for every finite non-zero x (subnormals included), INT_MAX for infinities, FP_ILOGB0 for zero, FP_ILOGBNAN for NaN; logb returns it as a float with logb(0) = -inf.", "quantifier": "all bit patterns", "why_tests_cant": "2^64 inputs", "anchors": ["dpm/detail/x86/logb.cpp: eval_ilogb, impl_ilogb, impl_logb"]}
{"id": "C33", "title": "modf", "statement": "modf(x) returns an integral part of x's sign with |i| <= |x| and a fractional part y, |y| < 1, same sign, with x = i + y exactly, for every finite x.", "quantifier": "all finite bit patterns", "why_tests_cant": "2^64 inputs", "anchors": ["dpm/detail/x86/modf.cpp: impl_modf"]}
{"id": "C34", "title": "64-bit integer to double conversion is correctly rounded", "statement": "Converting int64/uint64 elements to double (used by logb, sin, ...) gives the nearest double (ties to even) for every value.", "quantifier": "all 2^64 values", "why_tests_cant": "2^64 inputs", "anchors": ["dpm/detail/x86/cvt.hpp: cvt_i64_f64_sse, cvt_u64_f64_sse (l.68-104)"]}
{"id": "C35", "title": "32-bit unsigned conversions are correctly rounded", "statement": "Converting uint32 elements to float gives the nearest float; converting float to uint32 gives the rounded integer for values in range.", "quantifier": "all 2^32 values", "why_tests_cant": "rounding corner cases are sparse", "anchors": ["dpm/detail/x86/cvt.hpp: cvt_u32_f32, cvt_f32_u32 (l.37-49)"]}
{"id": "C36", "title": "lrint/llrint/rint", "statement": "rint rounds every finite x to the nearest integer, ties to even (default mode); lrint/llrint return it as an integer for all x in the range of the result type.", "quantifier": "all finite bit patterns", "why_tests_cant": "2^64 inputs", "anchors": ["dpm/detail/x86/round.hpp: rint, lrint (l.160-190,250-275)", "dpm/detail/x86/cvt.hpp: cvt_f64_i64_sse"]}
{"id": "C37", "title": "round/lround/iround", "statement": "round(x) is the integer nearest x with halves away from zero for every finite x; lround, llround and iround return the same value as integers.", "quantifier": "all finite bit patterns, all vector widths", "why_tests_cant": "2^64 inputs; failing inputs are isolated", "anchors": ["dpm/detail/x86/round.hpp: round, lround, llround, iround"]}
{"id": "C38", "title": "floor/ceil/trunc", "statement": "floor, ceil and trunc return the largest integer not above, smallest not below, and the integer part of every finite x on every instruction-set configuration.", "quantifier": "all finite bit patterns, all configurations", "why_tests_cant": "2^64 inputs and several builds", "anchors": ["dpm/detail/x86/round.hpp: ceil, floor, trunc (l.31-93)", "dpm/detail/x86/cvt.hpp: trunc_sse2 (l.141-169)"]}
{"id": "C39", "title": "CPU feature queries imply OS support", "statement": "cpuid::has_X() returns true only if the processor reports X and the operating system has enabled the register state X needs, and is true whenever both hold.", "quantifier": "all cpuid/xgetbv register contents", "why_tests_cant": "needs every CPU/OS combination", "anchors": ["dpm/detail/x86/cpuid.hpp", "dpm/detail/x86/cpuid.cpp"]}
{"id": "C40", "title": "Table lookups of the logarithms stay in bounds", "statement": "log, log2, log10, log1p index their constant tables inside the table bounds for every input bit pattern (NaN, negative, subnormal included).", "quantifier": "all bit patterns", "why_tests_cant": "2^64 inputs", "anchors": ["dpm/detail/x86/exp.hpp: eval_log, log_get_table", "dpm/detail/x86/log2.cpp", "dpm/detail/fconst.hpp"]}
{"id": "C41", "title": "Logarithm special values", "statement": "log/log2/log10(+-0) = -inf, log(1) = +0, log(x<0) = NaN, log(+inf) = +inf, log(NaN) = NaN; log1p(-1) = -inf.", "quantifier": "all inputs of each class", "why_tests_cant": "all NaN payloads/negative values", "anchors": ["dpm/detail/x86/exp.hpp: log_excepts", "dpm/detail/x86/log1p.cpp: log1p_excepts", "dpm/detail/x86/except.hpp: except_divzero"]}
{"id": "C42", "title": "Exact symmetries of trigonometric functions", "statement": "sin(-x) = -sin(x), tan... asin(-x) = -asin(x), atan(-x) = -atan(x) and cos(-x) = cos(x) hold bit for bit for every non-NaN x for which the vector path is taken.", "quantifier": "all bit patterns", "why_tests_cant": "2^64 inputs", "anchors": ["dpm/detail/x86/trig.hpp: eval_sincos", "dpm/detail/x86/sincos.cpp", "dpm/detail/x86/asincos.cpp", "dpm/detail/x86/atan.cpp"]}
{"id": "C43", "title": "hypot special cases and symmetry", "statement": "hypot(a,b) = hypot(b,a), hypot(+-inf, b) = +inf even for NaN b, hypot(x, 0) = |x|, and NaN results only for NaN operands.", "quantifier": "all pairs of bit patterns", "why_tests_cant": "2^128 pairs", "anchors": ["dpm/detail/x86/hypot.cpp: prepare_hypot, impl_hypot"]}
{"id": "C44", "title": "fma, fdim, lerp, fmin/fmax", "statement": "fma(a,b,c) is a*b+c rounded once; fdim(a,b) is a-b if a > b else +0; lerp(a,b,0) = a and lerp(a,b,1) = b; for every finite input.", "quantifier": "all finite triples", "why_tests_cant": "2^192 triples", "anchors": ["dpm/detail/x86/mbase.hpp: fmadd, fdim, lerp, fmax, fmin"]}
{"id": "C45", "title": "x86 min/max/clamp", "statement": "min/max/clamp on x86 give per element the std::min/std::max/std::clamp result for integers and for floats (NaN and signed zeros included).", "quantifier": "all N and values", "why_tests_cant": "all value pairs", "anchors": ["dpm/detail/x86/type.hpp: min, max, minmax, clamp (l.1567-2018)", "dpm/detail/x86/minmax.hpp"]}
{"id": "C46", "title": "Exponents are routed to their own element", "statement": "ldexp/frexp/ilogb/scalbln on double vectors pair element i with exponent element i for every N and native width, although the exponents are packed in vectors of a different lane count.", "quantifier": "all N, all values", "why_tests_cant": "cross-lane routing depends on N and ISA", "anchors": ["dpm/detail/x86/fmanip.hpp: scalbn32, scalbn64, frexp2, ilogb2 (l.37-175)", "dpm/detail/x86/cvt.hpp: cvt_i64_i32, cvt_i64x2_i32"]}
{"id": "C47", "title": "Signed conversions between floating-point and integer elements", "statement": "Loading int32 into float vectors (or storing int32 vectors as float) gives the nearest float; storing float as int32, double as int64 and double as uint64 (whole-register copies) gives the nearest integer, ties to even, for every value in range of the integer type.", "quantifier": "all 2^32/2^64 values, all N, all configurations", "why_tests_cant": "2^64 inputs; failing inputs are isolated", "anchors": ["dpm/detail/x86/cvt.hpp: cvt (l.53-60,100-104,306-316)", "dpm/detail/x86/type.hpp: copy_from, copy_to (l.643-671)"]}
{"id": "C48", "title": "Alignment flags do not change converted values", "statement": "copy_from/copy_to with a converting element type give the same elements with vector_aligned as with element_aligned.", "quantifier": "all values, all N", "why_tests_cant": "2^64 inputs and several builds", "anchors": ["dpm/detail/x86/type.hpp: copy_from, copy_to (l.643-671)", "dpm/detail/x86/utility.hpp: native_vec_cast (l.314-324)"]}
{"id": "C49", "title": "sqrt and reciprocal are correctly rounded", "statement": "sqrt of a float or double vector returns in every element the correctly rounded square root of a finite non-negative element, +-0 for +-0, +inf for +inf and NaN for negative or NaN elements; rcp of a double vector returns the correctly rounded 1/x including +-inf for +-0 and +-0 for +-inf.", "quantifier": "all vector sizes, builds, registers and every element bit pattern", "why_tests_cant": "2^32 and 2^64 element patterns per lane times all sizes and builds; a test samples a handful", "anchors": ["dpm/detail/x86/pow.hpp: sqrt, rcp"]}
{"id": "C50", "title": "Floating-point vector arithmetic is IEEE 754, once per element", "statement": "v1+v2, v1-v2, v1*v2, v1/v2 of float and double vectors and the forms with a scalar operand give in every element the exact result rounded once to nearest even: overflow to the signed infinity, signed zeros, infinities and NaN as IEEE 754 prescribes, independent of vector size, of the instruction set and of padding lanes.", "quantifier": "all vector sizes, builds and all pairs of element bit patterns", "why_tests_cant": "2^64 or 2^128 operand pairs per lane", "anchors": ["dpm/detail/x86/type.hpp: operator+, operator-, operator*, operator/", "dpm/detail/x86/addsub.hpp: add, sub", "dpm/detail/x86/muldiv.hpp: mul, div"]}
{"id": "C51", "title": "log1p keeps its precision near zero", "statement": "For every x close to zero log1p(x) agrees with x to within the precision of the type (log1p(x) = x - x^2/2 + ...), in particular it is non-zero for non-zero x.", "quantifier": "all x near zero, all builds and options", "why_tests_cant": "the failing set is an interval of very small numbers that a test has to know about", "anchors": ["dpm/detail/x86/log1p.cpp: impl_log1p, log1p_excepts"]}
{"id": "C52", "title": "log2 of a power of two is exact", "statement": "log2(2^k) = k exactly for every k in the range of the type.", "quantifier": "all k, all builds and options", "why_tests_cant": "one value per exponent and per table entry", "anchors": ["dpm/detail/x86/log2.cpp: impl_log2", "dpm/detail/fconst.cpp: logtab_f64_v, log2tab"]}
{"id": "C53", "title": "The logarithms approximate the real logarithm", "statement": "For every positive finite x, subnormals and the largest numbers included, log(x), log2(x) and log10(x) differ from the real logarithm by an error of a few units in the last place of the largest intermediate term.", "quantifier": "all positive finite values, all builds and options", "why_tests_cant": "2^31 or 2^63 arguments", "anchors": ["dpm/detail/x86/exp.hpp: eval_log, log_normalize", "dpm/detail/x86/log.cpp", "dpm/detail/x86/log2.cpp", "dpm/detail/x86/log10.cpp"]}
{"id": "C54", "title": "Single-precision sin and cos are accurate", "statement": "For every finite float |x| <= 2^22 sin(x) and cos(x) are finite and differ from the real sine and cosine by at most 2^-20; in builds without fused multiply-add by at most 2^-20 + |x| * 2^-24. sincos gives the same two results.", "quantifier": "all 2^32 bit patterns in range, all vector sizes, builds and options", "why_tests_cant": "the bound is on a real-valued function over a dense domain; a test compares a sample with another implementation", "anchors": ["dpm/detail/x86/trig.hpp: sin, cos, sincos", "dpm/detail/x86/sincos.cpp: eval_sincos, impl_sincos", "dpm/detail/fconst.cpp: dp_sincos, sincof, coscof"]}
{"id": "C55", "title": "Double-precision sin and cos are accurate", "statement": "For every finite double |x| <= 2^51 (the range of the vector code) sin(x) and cos(x) are finite and differ from the real sine and cosine by at most 2^-50.", "quantifier": "all doubles in range, all vector sizes, builds and options", "why_tests_cant": "2^63 arguments; the wrong results appear only above an octant count a test has to know about", "anchors": ["dpm/detail/x86/trig.hpp: sin, cos, sincos", "dpm/detail/x86/sincos.cpp: eval_sincos, impl_sincos", "dpm/detail/x86/cvt.hpp: cvt_i64_f64 (SSE4.1)"]}
{"id": "C56", "title": "Special values of the trigonometric functions", "statement": "sin, tan, asin and atan of +-0 return the argument unchanged; cos(+-0) = 1; asin(+-1), acos(-1), acos(+-0) and atan(+-inf) are the numbers nearest to +-pi/2, pi, pi/2 and +-pi/2, and acos(1) = +0; a NaN argument gives a NaN; asin and acos of |x| > 1 give a NaN, and so do sin, cos and tan of an infinity when error handling is enabled.", "quantifier": "all elements of all vectors, all builds and options", "why_tests_cant": "the NaN and |x| > 1 cases range over millions of bit patterns, and every case over all vector widths and builds", "anchors": ["dpm/detail/x86/trig.hpp: sin, cos, tan, asin, acos, atan", "dpm/detail/x86/sincos.cpp", "dpm/detail/x86/tan.cpp", "dpm/detail/x86/asincos.cpp", "dpm/detail/x86/atan.cpp"]}
{"id": "C57", "title": "Accuracy of tan", "statement": "For finite x in the range where sin and cos are accurate (|x| <= 2^22, or 2^15 in double builds without exact octant conversion) and with |cos x| at least twice their error e, the result of tan is finite and within 3 e (1 + |tan x|)^2 of tan x - in particular close to x for small x.", "quantifier": "all finite argument values in the range, all vector widths, SSE/AVX builds, with and without FMA, with and without DPM_HANDLE_ERRORS", "why_tests_cant": "a test samples points; the claim ranges over every float and double, and the two evaluation paths meet at pi/32", "anchors": ["dpm/detail/x86/tan.cpp: impl_tan", "dpm/detail/x86/trig.hpp: tancof, eval_sincos", "dpm/detail/x86/polevl.hpp"]}
{"id": "C58", "title": "Accuracy of atan", "statement": "For every finite x, subnormals and the largest numbers included, atan(x) is finite and differs from the real arctangent by at most 8 epsilon |atan x|, where epsilon is std::numeric_limits<T>::epsilon().", "quantifier": "all finite floats and doubles, all vector widths, builds with and without FMA", "why_tests_cant": "the bound is on a real-valued function over all 2^32 or 2^64 arguments and must hold across the three reduction intervals", "anchors": ["dpm/detail/x86/atan.cpp: impl_atan", "dpm/detail/x86/polevl.hpp", "dpm/detail/fconst.hpp: atan_p, atan_q"]}
{"id": "C59", "title": "Accuracy of asin", "statement": "For every x in [-1, 1], asin(x) is finite and differs from the real arcsine by at most 8 epsilon |asin x|.", "quantifier": "all floats and doubles in [-1, 1], all vector widths, builds and options", "why_tests_cant": "the square-root branch cancels near its lower end; the bound must hold for every argument", "anchors": ["dpm/detail/x86/asincos.cpp: impl_asin", "dpm/detail/fconst.hpp: asin_p, asin_q, asin_r, asin_s"]}
{"id": "C60", "title": "Accuracy of acos", "statement": "For every x in [-1, 1], acos(x) is finite and differs from the real arccosine by at most 8 epsilon acos x; in particular the relative error stays bounded as x approaches 1.", "quantifier": "all floats and doubles in [-1, 1], all vector widths, builds and options", "why_tests_cant": "the relative error near x = 1, where the result goes to zero, is decided by the last few representable numbers", "anchors": ["dpm/detail/x86/asincos.cpp: impl_acos", "dpm/detail/fconst.hpp: asin_p, asin_q, asin_r, asin_s"]}
{"id": "C61", "title": "Portable math functions are elementwise", "statement": "In the portable implementation every math function f of one, two or three arguments (simd/simd, simd/scalar and mixed-type overloads) yields, for every element, the value of the <cmath> function of the same name on the corresponding elements in the same argument order, converted first to the promoted type where the argument types differ; out-parameters (frexp, modf, remquo, sincos) receive the corresponding second results; fmadd, fmsub, fnmadd and fnmsub are a*b+c, a*b-c, c-a*b and -(a*b)-c; rcp and rsqrt are 1/x and 1/sqrt(x).", "quantifier": "all vector sizes, all argument vectors, all function names, every <cmath> library", "why_tests_cant": "about 120 functions and overloads, each for every size, argument and standard library: a copy-paste error affects one of them", "anchors": ["dpm/detail/generic/math.hpp: abs ... lltrunc", "dpm/detail/generic/type.hpp: simd(const U *, flags), simd(const simd<U> &)"]}
{"id": "C62", "title": "Portable rint", "statement": "In the portable implementation rint(x) rounds every element to the nearest integer in floating-point format, ties to even, keeping the sign of zero; infinities and NaN are returned unchanged.", "quantifier": "all vectors, both formats, 32- and 64-bit long", "why_tests_cant": "the error is confined to values outside the range of long, NaN, and results of -0", "anchors": ["dpm/detail/generic/math.hpp: rint"]}
{"id": "C63", "title": "Portable rounding to integer types", "statement": "In the portable implementation lround, llround, llrint, iround<I>, irint<I>, itrunc<I>, ltrunc and lltrunc return, whenever the rounded value (half away from zero, to nearest even, towards zero) fits the integer type, exactly that value.", "quantifier": "all vectors, all integer widths, both formats, both sizes of long", "why_tests_cant": "2^64 arguments times integer types; several casts in sequence", "anchors": ["dpm/detail/generic/math.hpp: lround, llround, llrint, iround, irint, itrunc, ltrunc, lltrunc"]}
{"id": "C64", "title": "Functions without an x86 overload on x86 vectors", "statement": "A math function that the x86 backend does not provide may be called with any native-width vector: the result is the <cmath> function of every element, for every vector size.", "quantifier": "all element counts, element types, native widths and arguments", "why_tests_cant": "the error depends on the vector size relative to the lane count and shows only as an out-of-bounds read", "anchors": ["dpm/detail/generic/math.hpp", "dpm/detail/x86/type.hpp: simd(const U *, vector_aligned)", "dpm/detail/x86/math.hpp"]}
{"id": "C65", "title": "Mask reductions in constant expressions", "statement": "all_of, any_of, none_of, some_of, reduce_count, reduce_min_index and reduce_max_index of an x86 mask can be evaluated in a constant expression and then give the same result as at run time.", "quantifier": "all masks of all sizes and native widths", "why_tests_cant": "the wrong result depends on the position of the last true element and on the number of registers; a constant-evaluated test has to be written per case", "anchors": ["dpm/detail/x86/type.hpp: simd_mask::operator[], all_of, any_of, none_of, some_of, reduce_count, reduce_min_index, reduce_max_index"]}
{"id": "C66", "title": "hypot is accurate without overflow or underflow in between", "statement": "For finite x and y, hypot(x, y) is within 3/2 machine epsilons (relative) plus half the least positive number of sqrt(x*x + y*y), whatever the magnitudes; it is +infinity only if sqrt(x*x + y*y), enlarged by 3/2 epsilons, exceeds every finite number.", "quantifier": "all pairs of finite floats and doubles, all vector sizes, with and without FMA and NaN propagation", "why_tests_cant": "2^64 or 2^128 pairs; errors hide at the thresholds between the scaled and unscaled branches and for subnormal operands", "anchors": ["dpm/detail/x86/hypot.cpp", "dpm/detail/x86/pow.hpp: hypot"]}
{"id": "C67", "title": "log1p is accurate over its whole domain", "statement": "For every finite x > -1, log1p(x) is finite and differs from ln(1 + x) by at most 9 machine epsilons times 1 + |ln(1 + x)|.", "quantifier": "all finite floats and doubles above -1, subnormal ones included, all vector sizes, all builds and options", "why_tests_cant": "2^63 doubles; the correction term for the rounding of 1 + x has a different rounding case on either side of every power of two and near -1", "anchors": ["dpm/detail/x86/log1p.cpp: eval_log1p, impl_log1p", "dpm/detail/x86/log.hpp: log1p"]}
{"id": "C68", "title": "rcp and rsqrt", "statement": "rsqrt of a double vector gives, for every positive finite x, a number within 1.01 machine epsilons of 1/sqrt(x), +-infinity for +-0, +0 for +infinity and NaN for negative numbers and NaN. rcp and rsqrt of a float vector give in element i the processor's estimate for element i, for every vector size.", "quantifier": "all bit patterns of double; all float vectors of all sizes, whatever function the processor's estimate is", "why_tests_cant": "2^64 doubles; the estimate differs between processors, so no test on one machine covers it", "anchors": ["dpm/detail/generic/math.hpp: rsqrt", "dpm/detail/x86/pow.hpp: rcp, rsqrt"]}
{"id": "C69", "title": "Vectors in constant expressions", "statement": "Every operation on an x86 vector (element access, reductions, operators, conversions, math functions) can be evaluated in a constant expression and then gives the same result as at run time.", "quantifier": "all vectors of all sizes and native widths, all functions whose constant-evaluated branch converts to the portable vector and back", "why_tests_cant": "whether an expression is constant depends on the size and on every statement on the path; no run-time test executes these branches", "anchors": ["dpm/detail/x86/type.hpp: simd::operator[], copy_from, copy_to, operator simd<U, OtherAbi>, reduce", "dpm/detail/generic/type.hpp: reduce_impl, operator simd<U, OtherAbi>"]}
{"id": "C70", "title": "ldexp undoes frexp", "statement": "Splitting a vector with frexp and putting fractions and exponents together with ldexp gives back every element bit for bit (a NaN comes back as a NaN).", "quantifier": "all bit patterns of float and double in every position, all vector sizes", "why_tests_cant": "2^64 doubles and two cross-lane routings of the exponents in sequence", "anchors": ["dpm/detail/x86/fmanip.hpp: frexp, ldexp", "dpm/detail/x86/frexp.cpp: impl_frexp", "dpm/detail/x86/fmanip.hpp: scalbn32, scalbn64"]}
{"id": "C71", "title": "Laws of the rounding functions", "statement": "floor, ceil, trunc, rint and nearbyint leave a vector that one of them has rounded unchanged bit for bit; floor(-x) = -ceil(x), ceil(-x) = -floor(x) and trunc, rint, nearbyint are odd, signs of zero included; all of them are monotone; floor(x) <= x <= ceil(x), which are equal or differ by one.", "quantifier": "all bit patterns of float and double (pairs of them for monotonicity), all vector sizes", "why_tests_cant": "2^64 doubles, 2^128 pairs; relations between calls, not between a call and a reference value", "anchors": ["dpm/detail/x86/round.hpp: floor, ceil, trunc, rint, nearbyint", "dpm/detail/x86/type.hpp: simd::operator-"]}
