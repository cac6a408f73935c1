(** Model of sqrt, rcp (double) and hypot of the x86 backend: /repo/dpm/detail/x86/pow.hpp 30-51, 108-141, 147-163 and hypot.cpp.

    rcp and rsqrt of float are the approximate instructions rcpps/rsqrtps, whose results are not specified: not modelled.
    [fm] is DPM_HAS_FMA, [pn] is DPM_PROPAGATE_NAN.  Floating-point exception flags are not modelled. *)
From Coq Require Import ZifyBool ZifyNat.
From Verif Require Import Base Cxx X86Vec X86 Fp FMath FMathProofs FManip FArith.

(** detail::sqrt pow.hpp 31, 36, 45, 49; sqrt 108-123 *)
Definition v_sqrt (X : xty) (nn : nans) : vec -> vec := vmap (fsqrt nn (xf X)).
Definition x_sqrt (X : xty) (nn : nans) := vz1 X (fun x => Ok (v_sqrt X nn x)).
(** detail::rcp of double pow.hpp 35, 48; ext::rcp 147-163 *)
Definition v_rcp (X : xty) (nn : nans) (x : vec) : vec := v_div_f X (ieee nn) (v_fill X (fone (xw X))) x.
Definition x_rcp (X : xty) (nn : nans) := vz1 X (fun x => Ok (v_rcp X nn x)).

(** hypot.cpp 13-31: prepare_hypot; the results are both the new operands and their bits *)
Definition prep_hypot (X : xty) (a b : vec) : vec * vec :=
  let I := as_int X in
  let s := v_fill X (2 ^ (xw X - 1)) in
  let abs_a := v_andnot s a in
  let abs_b := v_andnot s b in
  let swap := cmp_ps (xw X) (fun x y => negb (flt (xw X) x y)) abs_a abs_b in
  (blendv I abs_b abs_a swap, blendv I abs_a abs_b swap).

Definition cvtps_pd (nn : nans) : vec -> vec := vmap (fcvt nn F32 F64).
Definition cvtpd_ps (nn : nans) : vec -> vec := vmap (fcvt nn F64 F32).
(** x*x + y*y in double: fmadd(x, x, mul(y, y)) (mbase.hpp), then sqrt *)
Definition dist64 (fm : bool) (nn : nans) (x y : vec) : vec :=
  let yy := vmap2 (fmul nn F64) y y in
  vmap (fsqrt nn F64) (if fm then vmap3 (ffma nn F64) x x yy else vmap2 (fadd nn F64) (vmap2 (fmul nn F64) x x) yy).
(** hypot.cpp 34-65: eval_hypotf; the 256-bit version works on the two halves, the 128-bit one without AVX on the low and high pairs
    (_mm_shuffle_ps(x, x, 3232) moves the high pair down, the final shuffle 1010 joins the two low pairs) *)
Definition eval_hypotf (X : xty) (fm : bool) (nn : nans) (x y z : vec) : vec :=
  let go x y := cvtpd_ps nn (dist64 fm nn (cvtps_pd nn x) (cvtps_pd nn y)) in
  let xy :=
    if is256 X then go (firstn 4 x) (firstn 4 y) ++ go (skipn 4 x) (skipn 4 y)
    else if avx (xc X) then go x y
    else go (firstn 2 x) (firstn 2 y) ++ go (firstn 2 (shuffle_epi32 3 2 3 2 x)) (firstn 2 (shuffle_epi32 3 2 3 2 y)) in
  vmap2 (fmul nn F32) z xy.

(** hypot.cpp 125-168: impl_hypot<float>; 0x12800000 = 0x1p-90f, 0x6c800000 = 0x1p90f *)
Definition k_hypotf (X : xty) (fm pn : bool) (nn : nans) (a b : vec) : vec :=
  let F := ieee nn in
  let I := as_int X in
  let (ia, ib) := prep_hypot X a b in
  let one := v_fill X 0x3f800000 in
  let big := cmp_gt I ia (v_fill I (0xbb * 2 ^ 23 - 1)) in
  let small := v_andnot big (cmp_gt I (v_fill I (0x43 * 2 ^ 23)) ib) in
  let new_z := blendv X (v_fill X 0x12800000) (v_fill X 0x6c800000) big in
  let off := v_or big small in
  let mult := blendv X one (blendv X (v_fill X 0x6c800000) (v_fill X 0x12800000) big) off in
  let c0 := blendv X one new_z off in
  let ab_small := v_or (cmp_eq I ib (zerov I)) (cmp_gt I (v_sub I F ia ib) (v_fill I (25 * 2 ^ 23 - 1))) in
  let ma := v_andnot ab_small (v_mul X F ia mult) in
  let mb := v_andnot ab_small (v_mul X F ib mult) in
  let c0 := eval_hypotf X fm nn mb ma c0 in
  if pn then
    let inf_a := cmp_gt I ia (v_fill I (0xff * 2 ^ 23 - 1)) in
    let inf_b := cmp_eq I ib (v_fill I (0xff * 2 ^ 23)) in
    let c1 := v_add X F (blendv X ia ib inf_b) (v_and ib ab_small) in
    blendv X c0 c1 (v_or inf_b (v_or inf_a ab_small))
  else blendv X c0 (v_add X F ia ib) ab_small.

(** hypot.cpp 70-82: split; 0x41a0000002000000 = 0x1p27 + 1, 0x4000000000000000 = 2.0 *)
Definition hy_split (X : xty) (fm : bool) (nn : nans) (x : vec) : vec * vec :=
  let F := ieee nn in
  let xc := v_mul X F x (v_fill X 0x41a0000002000000) in
  let xh := v_add X F (v_sub X F x xc) xc in
  let xl := v_sub X F x xh in
  let h := v_mul X F x x in
  let l := v_fmsub X fm nn xh xh h in
  let l := v_fmadd X fm nn xh (v_mul X F xl (v_fill X 0x4000000000000000)) l in
  let l := v_fmadd X fm nn xl xl l in
  (h, l).
(** hypot.cpp 67-124: impl_hypot<double>; 0x1430000000000000 = 0x1p-700, 0x6bb0000000000000 = 0x1p700 *)
Definition k_hypotd (X : xty) (fm pn : bool) (nn : nans) (a b : vec) : vec :=
  let F := ieee nn in
  let I := as_int X in
  let (a, b) := prep_hypot X a b in
  let ia := c_shiftr I 32 a in
  let ib := c_shiftr I 32 b in
  let one := v_fill X 0x3ff0000000000000 in
  let big := cmp_gt_l32 X ia (v_fill I (0x5fd * 2 ^ 20 - 1)) in
  let small := v_andnot big (cmp_gt_l32 X (v_fill I (0x23d * 2 ^ 20)) ib) in
  let new_c := blendv X (v_fill X 0x1430000000000000) (v_fill X 0x6bb0000000000000) big in
  let off := v_or big small in
  let mult := blendv X one (blendv X (v_fill X 0x6bb0000000000000) (v_fill X 0x1430000000000000) big) off in
  let c0 := blendv X one new_c off in
  let ab_small := v_or (cmp_eq I ia (zerov I)) (cmp_gt_l32 X (v_sub I F ia ib) (v_fill I (65 * 2 ^ 20 - 1))) in
  let (hx, lx) := hy_split X fm nn (v_andnot ab_small (v_mul X F a mult)) in
  let (hy, ly) := hy_split X fm nn (v_andnot ab_small (v_mul X F b mult)) in
  let c0 := v_mul X F c0 (v_sqrt X nn (v_add X F (v_add X F ly lx) (v_add X F hy hx))) in
  if pn then
    let inf_a := cmp_gt I ia (v_fill I (0x7ff * 2 ^ 20 - 1)) in
    let inf_b := cmp_eq I ib (v_fill I (0x7ff * 2 ^ 20)) in
    let c1 := v_add X F (blendv X a b inf_b) (v_and b ab_small) in
    blendv X c0 c1 (v_or inf_b (v_or inf_a ab_small))
  else blendv X c0 (v_add X F a b) ab_small.

(** hypot.cpp 170-176; hypot pow.hpp 126-142 *)
Definition k_hypot (X : xty) (fm pn : bool) (nn : nans) : vec -> vec -> vec :=
  if esz (xT X) =? 4 then k_hypotf X fm pn nn else k_hypotd X fm pn nn.
Definition x_hypot (X : xty) (fm pn : bool) (nn : nans) := vz2 X (fun a b => Ok (k_hypot X fm pn nn a b)).
