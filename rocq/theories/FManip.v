(** Model of the exponent-manipulating functions of the x86 backend:
    /repo/dpm/detail/x86/{scalbn,frexp,modf}.cpp, except.hpp, cmp.hpp 101-111 and the constants of /repo/dpm/detail/fconst.hpp.
    DPM_HANDLE_ERRORS and DPM_PROPAGATE_NAN are defined (the defaults of CMakeLists.txt); floating-point exception
    flags are not modelled.  Constants are given as bit patterns. *)
From Coq Require Import ZifyBool ZifyNat.
From Verif Require Import Base Cxx X86Vec X86 FMath.

(** fconst.hpp 26-29, 50-75 *)
Definition expbits (w : Z) : Z := if (w =? 32)%Z then 8 else 11.
Definition exp_mask (w : Z) : Z := if (w =? 32)%Z then 0xff else 0x7ff.
Definition exp_off (w : Z) : Z := if (w =? 32)%Z then 127 else 1023.
Definition exp_middle (w : Z) : Z := if (w =? 32)%Z then 0x7e else 0x3fe.
Definition max_scalbn : Z := 50000.
Definition exp_mult (w : Z) : Z := if (w =? 32)%Z then 0x4c000000 else 0x4350000000000000.        (* 0x1p25, 0x1p54 *)
Definition exp_multm (w : Z) : Z := if (w =? 32)%Z then 0x33000000 else 0x3c90000000000000.       (* 0x1p-25, 0x1p-54 *)
Definition huge (w : Z) : Z := if (w =? 32)%Z then 0x7149f2ca else 0x7e37e43c8800759c.            (* 1.0e+30f, 1.0e+300 *)
Definition tiny (w : Z) : Z := if (w =? 32)%Z then 0x0da24260 else 0x01a56e1fc2f8f359.            (* 1.0e-30f, 1.0e-300 *)
Definition fone (w : Z) : Z := if (w =? 32)%Z then 0x3f800000 else 0x3ff0000000000000.            (* 1.0 *)
(** fill<Vi>(c) for a possibly negative integer constant *)
Definition ifill (X : xty) (c : Z) : vec := v_fill X (wrap (xw X) c).

(** except.hpp 13-40 *)
Definition except_uflow (X : xty) (F : fops) (x sign mask : vec) : vec :=
  let t := v_fill X (tiny (xw X)) in blendv X x (v_mul X F t (v_or t sign)) mask.
Definition except_oflow (X : xty) (F : fops) (x sign mask : vec) : vec :=
  let t := v_fill X (huge (xw X)) in blendv X x (v_mul X F t (v_or t sign)) mask.
Definition except_invalid (X : xty) (F : fops) (y x mask : vec) : vec :=
  blendv X y (v_div_f X F (v_sub X F x x) (zerov X)) mask.
Definition except_divzero (X : xty) (F : fops) (neg : bool) (y x mask : vec) : vec :=
  let one := v_fill X ((if neg then 2 ^ (xw X - 1) else 0) + fone (xw X))%Z in
  blendv X y (v_div_f X F one (v_sub X F x x)) mask.

(** cmp.hpp 101-111 (128-bit, 8 bytes), 202 (256-bit: cmp_gt), 210-211 (4 bytes: cmp_gt) *)
Definition cmp_gt_l32 (X : xty) (a b : vec) : vec :=
  if (esz (xT X) =? 8) && negb (is256 X) then
    if sse41 (xc X) then cmpgt_epi 64 a b
    else join2 32 (shuffle_epi32 2 2 0 0 (cmpgt_epi 32 (split2 32 a) (split2 32 b)))
  else cmp_gt (as_int X) a b.

(** scalbn.cpp 12-58: impl_scalbn *)
Definition k_scalbn (X : xty) (F : fops) (x n : vec) : vec :=
  let I := as_int X in
  let w := xw X in
  let m := mant w in
  let x_exp := v_and (c_shiftr I m x) (ifill I (exp_mask w)) in
  let fwd_mask := cmp_eq X x (zerov X) in
  let norm_x := v_mul X F x (v_fill X (exp_mult w)) in
  let norm_exp := v_and (c_shiftr I m norm_x) (ifill I (exp_mask w)) in
  let norm_exp := v_sub I F norm_exp (ifill I (m + 2)) in
  let subnorm_mask := cmp_eq I x_exp (zerov I) in
  let norm_exp := v_or x_exp (v_and subnorm_mask norm_exp) in
  let norm_i := blendv I x norm_x subnorm_mask in
  let fwd_mask := v_or fwd_mask (cmp_eq I norm_exp (ifill I (exp_mask w))) in
  let norm_exp := v_add I F norm_exp n in
  let has_overflow := v_andnot fwd_mask (v_or (cmp_gt_l32 X n (ifill I max_scalbn)) (cmp_gt_l32 X norm_exp (ifill I (exp_mask w - 1)))) in
  let has_underflow := v_andnot fwd_mask (v_or (cmp_gt_l32 X (ifill I (- max_scalbn)) n) (cmp_gt_l32 X (ifill I (- m - 1)) norm_exp)) in
  let norm_result := cmp_gt_l32 X norm_exp (zerov I) in
  let norm_exp := v_add I F norm_exp (v_andnot norm_result (ifill I (m + 2))) in
  let norm_exp := c_shiftl I m norm_exp in
  let exp_zeros := ifill I (- 1 - exp_mask w * 2 ^ m) in
  let y := v_or (v_and norm_i exp_zeros) norm_exp in
  let y := blendv X y x fwd_mask in
  let norm_result := v_andnot fwd_mask norm_result in
  let y := blendv X (v_mul X F (v_andnot norm_result y) (v_fill X (exp_multm w))) y norm_result in
  let x_sign := masksign X x in
  let y := if test_mask I has_overflow then except_oflow X F y x_sign has_overflow else y in
  if test_mask I has_underflow then except_uflow X F y x_sign has_underflow else y.

(** fmanip.hpp 334-352 ldexp/scalbn(x, int): fill<exp_vector>(static_cast<exp_t>(exp)); 354-372 scalbln(x, long): the same
    code with a 64-bit argument, so that static_cast<exp_t> drops the upper half of the count for float *)
Definition x_scalbn_s (X : xty) (F : fops) (x : list vec) (exp : Z) : res (list vec) :=
  vz1 X (fun x => Ok (k_scalbn X F x (ifill (as_int X) exp))) x.
Definition x_ldexp_s := x_scalbn_s.
Definition x_scalbln_s := x_scalbn_s.

(** frexp.cpp 11-41: impl_frexp *)
Definition k_frexp (X : xty) (F : fops) (x : vec) : vec * vec :=
  let I := as_int X in
  let w := xw X in
  let m := mant w in
  let exp_ones := (exp_mask w * 2 ^ m)%Z in
  let exp_x := v_and x (ifill I exp_ones) in
  let not_fin := cmp_eq I exp_x (ifill I exp_ones) in
  let is_subn := cmp_eq I exp_x (zerov I) in
  let is_zero := cmp_eq X x (zerov X) in
  let off := v_and is_subn (ifill I (w - 1)) in                 (* std::numeric_limits<I>::digits *)
  let norm_x := v_mul X F (v_and is_subn x) (v_fill X (exp_mult w)) in
  let norm_x := blendv X x norm_x is_subn in
  let norm_exp := v_and norm_x (ifill I exp_ones) in
  let ix := norm_x in
  let norm_x := v_or (v_and ix (ifill I (- 1 - exp_ones))) (ifill I (exp_middle w * 2 ^ m)) in
  let norm_exp := v_sub I F (v_sub I F (c_shiftr I m norm_exp) (ifill I (exp_off w - 1))) off in
  let nfz := v_or is_zero not_fin in
  let norm_x := blendv X norm_x x nfz in
  let norm_exp := blendv I norm_exp exp_x nfz in
  (norm_x, norm_exp).

(** bit_shiftr<I>(a, b) with per-lane counts for 4-byte lanes: with AVX2 srlv (134-137); without it (48-68, 192-195) the
    lanes are shifted by the C++ operator >>= on uint32_t, which is undefined for counts >= 32. *)
Definition v_shiftr_any (X : xty) (a b : vec) : res vec :=
  if (esz (xT X) =? 8) || avx2 (xc X) then Ok (v_shiftr X a b)
  else mapM (fun p : Z * Z => if (snd p <? 32)%Z then Ok (fst p / 2 ^ snd p)%Z else UB) (combine a b).

(** modf.cpp 11-56: impl_modf; the first component is the fractional part, the second the integral part *)
Definition k_modf (X : xty) (F : fops) (x : vec) : res (vec * vec) :=
  let I := as_int X in
  let w := xw X in
  let m := mant w in
  let e := c_shiftr I m x in
  let e := v_and e (ifill I (exp_mask w)) in
  let e := v_sub I F e (ifill I (exp_off w)) in
  let int_mask := cmp_gt I e (ifill I (m - 1)) in
  let int_x := masksign X x in
  let fract_mask := cmp_gt I (zerov I) e in
  let fract_ip := masksign X x in
  let fract_x := x in
  mask <- v_shiftr_any X (c_shiftr I (expbits w + 1) (ifill I (- 1))) e;;
  let mask_zero := cmp_eq X (v_and x mask) (zerov X) in
  let mask_zero := v_andnot fract_mask mask_zero in
  let mask_zero := v_andnot int_mask mask_zero in
  let x1 := masksign X x in
  let x2 := v_andnot mask x in
  let i := blendv X x fract_ip fract_mask in
  let i := blendv X x2 i mask_zero in
  let y := blendv X (v_sub X F x x2) x1 mask_zero in
  let y := blendv X y fract_x fract_mask in
  let y := blendv X y int_x int_mask in
  let nan_mask := isunord X x x in
  let y := blendv X y x nan_mask in
  let i := blendv X i x nan_mask in
  Ok (y, i).

(** fmanip.hpp 270-288: modf(x, out_i) calls modf on every native vector; returns (fractional parts, integral parts) *)
Definition x_modf (X : xty) (F : fops) (x : list vec) : res (list vec * list vec) :=
  ps <- mapM (k_modf X F) x;; Ok (map fst ps, map snd ps).
