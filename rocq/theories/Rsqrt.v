(** Model of rsqrt of doubles and of the approximate float instructions on the x86 backend. *)
From Verif Require Import Base Cxx X86Vec X86 Fp FMath FMathProofs FManip FArith Hypot.

(** rsqrt of double: there is no x86 overload (pow.hpp 165-180 is for float only), so the call resolves to the portable
    /repo/dpm/detail/generic/math.hpp 444-445, rcp(sqrt(x)), whose sqrt and rcp are those of pow.hpp (found by argument-dependent lookup;
    the portable rcp, generic/math.hpp 437, is 1 / x with the same division, so its result would be the same) *)
Definition x_rsqrt_d (X : xty) (nn : nans) (a : list vec) : res (list vec) := s <- x_sqrt X nn a;; x_rcp X nn s.
(** rcp and rsqrt of float, pow.hpp 30, 32, 42, 44, 147-180: _mm_rcp_ps, _mm_rsqrt_ps and their 256-bit forms apply the
    processor's estimate [est], an unknown function of the element alone, to each lane (simplification: the estimate is the same in all lanes) *)
Definition v_estimate (est : Z -> Z) : vec -> vec := vmap est.
Definition x_estimate (X : xty) (est : Z -> Z) (a : list vec) : res (list vec) := vz1 X (fun x => Ok (v_estimate est x)) a.
