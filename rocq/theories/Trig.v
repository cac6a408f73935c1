(** Model of sin, cos, sincos, tan, asin, acos and atan of the x86 backend:
    /repo/dpm/detail/x86/{trig.hpp,polevl.hpp,sincos.cpp,tan.cpp,asincos.cpp,atan.cpp}.

    [fm] is DPM_HAS_FMA, [he] is DPM_HANDLE_ERRORS.  The scalar library functions called for large arguments are arguments of the
    model (bit patterns to bit patterns).  Floating-point exception flags, AVX-512 and the SVML branch are not modelled. *)
From Coq Require Import ZifyBool ZifyNat.
From Flocq Require Import IEEE754.BinarySingleNaN.
From Verif Require Import Base Cxx X86Vec X86 Fp FMath FMathProofs FManip FArith Cvt Round Hypot TrigTab.

(** polevl.hpp 13-28: Horner's scheme with fmadd; c[0] is the leading coefficient *)
Definition polevl (X : xty) (fm : bool) (nn : nans) (x : vec) (c : list Z) : vec :=
  fold_left (fun y a => v_fmadd X fm nn y x (v_fill X a)) (tl c) (v_fill X (hd 0%Z c)).
(** cvtt<I, T>: cvt.hpp 51 and 249 (float), 176-185 (double, 128 bits), 363-372 (double, 256 bits); I has the size of T *)
Definition cvtt_int (X : xty) (nn : nans) (x : vec) : vec :=
  if esz (xT X) =? 4 then cvttps_epi32 nn x
  else if is256 X then cvt_f64_i64_avx (xc X) nn (round_fp nn F64 mode_ZR x)
  else cvt_f64_i64_sse nn (trunc_sse2 (xc X) x).
(** cvt_has_overflow<I> for signed I: cvt.hpp 13-18, 25-30, 206-211, 218-223 *)
Definition cvt_has_overflow (X : xty) (x : vec) : vec := cmp_gt X x (v_fill X (c_oflow (xw X))).
(** utility.hpp 290-298: mask_invoke, writing one output register *)
Fixpoint mask_invoke (g : Z -> Z) (m : Z) (x y : vec) : vec :=
  match x, y with
  | a :: x', b :: y' => (if Z.odd m then g a else b) :: mask_invoke g (m / 2)%Z x' y'
  | _, _ => y
  end.

(** trig.hpp 31-77: eval_sincos *)
Definition eval_sincos (X : xty) (fm : bool) (nn : nans) (sign_x abs_x : vec) : vec * vec :=
  let I := as_int X in
  let F := ieee nn in
  let w := xw X in
  let fma := v_fmadd X fm nn in
  let y := v_div_f X F abs_x (v_fill X (c_pio4 w)) in
  let i := cvtt_int X nn y in
  let i := v_add I F i (ifill I 1) in
  let i := v_and i (ifill I (-2)) in
  let y := cvt_to_f X true nn i in
  let bit2 := c_shiftl I (w - 2) (v_and i (ifill I 2)) in
  let bit4 := c_shiftl I (w - 3) (v_and i (ifill I 4)) in
  let sign_cos := v_xor bit4 bit2 in
  let sign_sin := v_xor bit4 sign_x in
  let p_mask := cmp_ne I bit2 (zerov I) in
  let z := fma y (v_fill X (nth 0 (dp_sincos w) 0%Z)) abs_x in
  let z := fma y (v_fill X (nth 1 (dp_sincos w) 0%Z)) z in
  let z := fma y (v_fill X (nth 2 (dp_sincos w) 0%Z)) z in
  let zz := v_mul X F z z in
  let p1 := fma (v_mul X F (polevl X fm nn zz (sincof w)) zz) z z in
  let p2 := v_mul X F (polevl X fm nn zz (coscof w)) (v_mul X F zz zz) in
  let p2 := v_add X F (fma (v_fill X (c_mhalf w)) zz p2) (v_fill X (fone w)) in
  (v_xor (blendv X p1 p2 p_mask) sign_sin, v_xor (blendv X p2 p1 p_mask) sign_cos).

(** the domain check shared by sincos.cpp 22-25 and tan.cpp 22-25 *)
Definition trig_domain (X : xty) (he : bool) (nn : nans) (abs_x : vec) : vec :=
  if he then
    let m := isinf_abs X abs_x in
    if test_mask X m then except_invalid X (ieee nn) abs_x abs_x m else abs_x
  else abs_x.
(** sincos.cpp 15-53: impl_sincos; [ls], [lc] are the library functions of the lanes with large |x| *)
Definition k_sincos (X : xty) (fm he : bool) (nn : nans) (ls lc : Z -> Z) (x : vec) : vec * vec :=
  let sign_x := masksign X x in
  let abs_x := trig_domain X he nn (v_xor x sign_x) in
  let oflow_mask := cvt_has_overflow X abs_x in
  let y := eval_sincos X fm nn sign_x (v_andnot oflow_mask abs_x) in
  let m := movemask (as_int X) oflow_mask in
  if (m =? 0)%Z then y else (mask_invoke ls m x (fst y), mask_invoke lc m x (snd y)).
(** tan.cpp 13-53: impl_tan *)
Definition k_tan (X : xty) (fm he : bool) (nn : nans) (lt : Z -> Z) (x : vec) : vec :=
  let F := ieee nn in
  let sign_x := masksign X x in
  let abs_x := trig_domain X he nn (v_xor x sign_x) in
  let p_mask := cmp_gt X (v_fill X (c_pio32 (xw X))) abs_x in
  let p_mask_bits := movemask X p_mask in
  let p1 := if (p_mask_bits =? fill_bits (ext X))%Z then zerov X
            else let sc := eval_sincos X fm nn sign_x abs_x in v_div_f X F (fst sc) (snd sc) in
  let p2 := if (p_mask_bits =? 0)%Z then zerov X
            else v_mul X F (polevl X fm nn (v_mul X F x x) (tancof (xw X))) x in
  let y := blendv X p1 p2 p_mask in
  let m := movemask (as_int X) (cvt_has_overflow X abs_x) in
  if (m =? 0)%Z then y else mask_invoke lt m x y.

(** asincos.cpp 15-43: eval_asin *)
Definition eval_asin (X : xty) (fm : bool) (nn : nans) (abs_x x_sign : vec) : vec :=
  let F := ieee nn in
  let w := xw X in
  let c := v_fill X in
  let p_mask := cmp_gt X abs_x (c (c_five_eights w)) in
  let x_mask := cmp_lt_f X abs_x (c (c_asin_pmin w)) in
  let a1 := v_sub X F (c (fone w)) abs_x in
  let p1 := v_mul X F a1 (v_div_f X F (polevl X fm nn a1 (asin_r w)) (polevl X fm nn a1 (asin_s w))) in
  let a1 := v_sqrt X nn (v_add X F a1 a1) in
  let b1 := v_sub X F (c (c_pio4 w)) a1 in
  let a1 := v_fmsub X fm nn a1 p1 (c (c_asin_off w)) in
  let p1 := v_sub X F (v_add X F b1 (c (c_pio4 w))) a1 in
  let a2 := v_mul X F abs_x abs_x in
  let p2 := v_div_f X F (polevl X fm nn a2 (asin_p w)) (polevl X fm nn a2 (asin_q w)) in
  let p2 := v_fmadd X fm nn abs_x (v_mul X F a2 p2) abs_x in
  let p := blendv X p2 p1 p_mask in
  let p := blendv X p abs_x x_mask in
  v_xor p x_sign.
(** the domain check of asincos.cpp 51-54, 64-67 *)
Definition asin_domain (X : xty) (he : bool) (nn : nans) (abs_x : vec) : vec :=
  if he then
    let m := cmp_gt X abs_x (v_fill X (fone (xw X))) in
    if test_mask X m then except_invalid X (ieee nn) abs_x abs_x m else abs_x
  else abs_x.
(** asincos.cpp 44-56: impl_asin *)
Definition k_asin (X : xty) (fm he : bool) (nn : nans) (x : vec) : vec :=
  let x_sign := masksign X x in
  eval_asin X fm nn (asin_domain X he nn (v_xor x x_sign)) x_sign.
(** asincos.cpp 57-76: impl_acos *)
Definition k_acos (X : xty) (fm he : bool) (nn : nans) (x : vec) : vec :=
  let F := ieee nn in
  let w := xw X in
  let c := v_fill X in
  let x_sign := masksign X x in
  let abs_x := asin_domain X he nn (v_xor x x_sign) in
  let c_mask := cmp_gt X x (c (c_half w)) in
  let acos1 := v_mul X F (c (c_two w)) (eval_asin X fm nn (v_sqrt X nn (v_fmadd X fm nn abs_x (c (c_mhalf w)) (c (c_half w)))) (zerov X)) in
  let acos2 := v_add X F (v_add X F (v_sub X F (c (c_pio4 w)) (eval_asin X fm nn abs_x x_sign)) (c (c_asin_off w))) (c (c_pio4 w)) in
  blendv X acos2 acos1 c_mask.

(** atan.cpp 12-58: impl_atan *)
Definition k_atan (X : xty) (fm : bool) (nn : nans) (x : vec) : vec :=
  let F := ieee nn in
  let w := xw X in
  let c := v_fill X in
  let mone := c (2 ^ (w - 1) + fone w)%Z in
  let x_sign := masksign X x in
  let abs_x := v_xor x x_sign in
  let pio2_mask := cmp_gt X abs_x (c (c_tan3pio8 w)) in
  let pio4_mask := cmp_gt X abs_x (c (c_p66 w)) in
  let y := zerov X in
  let x_zero := cmp_eq X abs_x (zerov X) in
  let x_pio4 := v_div_f X F (v_add X F abs_x mone) (v_add X F abs_x (c (fone w))) in
  let x_pio2 := v_div_f X F mone (blendv X abs_x (c (fone w)) x_zero) in
  let abs_x := blendv X abs_x x_pio4 pio4_mask in
  let abs_x := blendv X abs_x x_pio2 pio2_mask in
  let y := blendv X y (c (c_pio4 w)) pio4_mask in
  let y := blendv X y (c (c_pio2 w)) pio2_mask in
  let z := v_mul X F abs_x abs_x in
  let p0 := polevl X fm nn z (atan_p w) in
  let p1 := polevl X fm nn z (atan_q w) in
  let z := v_mul X F z (v_div_f X F p0 p1) in
  let z := v_fmadd X fm nn abs_x z abs_x in
  let z_off := c (c_asin_off2 w) in
  let z := v_add X F z (v_and (v_or pio2_mask pio4_mask) z_off) in
  let z := v_add X F z (v_and pio2_mask z_off) in
  let y := v_add X F y z in
  let y := blendv X y (c (c_pio2 w)) (isinf_abs X abs_x) in
  v_xor y x_sign.

(** trig.hpp 169-281: the user functions; the sin and cos overloads compute only their own half of eval_sincos *)
Definition x_sin (X : xty) (fm he : bool) (nn : nans) (ls : Z -> Z) := vz1 X (fun x => Ok (fst (k_sincos X fm he nn ls ls x))).
Definition x_cos (X : xty) (fm he : bool) (nn : nans) (lc : Z -> Z) := vz1 X (fun x => Ok (snd (k_sincos X fm he nn lc lc x))).
Definition x_tan (X : xty) (fm he : bool) (nn : nans) (lt : Z -> Z) := vz1 X (fun x => Ok (k_tan X fm he nn lt x)).
Definition x_asin (X : xty) (fm he : bool) (nn : nans) := vz1 X (fun x => Ok (k_asin X fm he nn x)).
Definition x_acos (X : xty) (fm he : bool) (nn : nans) := vz1 X (fun x => Ok (k_acos X fm he nn x)).
Definition x_atan (X : xty) (fm : bool) (nn : nans) := vz1 X (fun x => Ok (k_atan X fm nn x)).
(** ext::sincos 284-302: the two outputs (vectorize over both), [ls]/[lc] the two results of ::sincos *)
Definition x_sincos (X : xty) (fm he : bool) (nn : nans) (ls lc : Z -> Z) (x : list vec) : res (list vec * list vec) :=
  s <- vz1 X (fun x => Ok (fst (k_sincos X fm he nn ls lc x))) x;;
  c <- vz1 X (fun x => Ok (snd (k_sincos X fm he nn ls lc x))) x;;
  Ok (s, c).
