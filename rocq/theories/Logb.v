(** Model of /repo/dpm/detail/x86/logb.cpp and of the user functions ilogb and logb of fmanip.hpp.
    DPM_HANDLE_ERRORS and DPM_PROPAGATE_NAN are defined (the defaults of CMakeLists.txt); the SVML branch
    (DPM_USE_SVML) and exception flags are not modelled.  FP_ILOGB0 and FP_ILOGBNAN are the parameters il0 and iln. *)
From Coq Require Import ZifyBool ZifyNat.
From Verif Require Import Base Cxx X86Vec X86 Fp FMath FManip FRoute Cvt.

(** addsub.hpp 33, 84, 118: _mm_subs_epu16 on one lane made of k 16-bit words *)
Fixpoint subs16 (k : nat) (a b : Z) : Z :=
  match k with
  | O => 0
  | S k => (Z.max 0 (a mod 2 ^ 16 - b mod 2 ^ 16) + 2 ^ 16 * subs16 k (a / 2 ^ 16) (b / 2 ^ 16))%Z
  end.
Definition v_subs16 (X : xty) : vec -> vec -> vec := vmap2 (subs16 (esz (xT X) / 2)).

(** logb.cpp 16-40: eval_ilogb *)
Definition ilogb_bias (w : Z) : Z := if (w =? 64)%Z then 1086 else 158.
Definition eval_ilogb (X : xty) (nn : nans) (abs_x : vec) : vec :=
  let I := as_int X in
  let w := xw X in
  let exp := c_shiftr I (mant w) abs_x in
  let fix_denorm := cmp_eq I exp (zerov I) in
  let x_clz := v_andnot (c_shiftr I (expbits w) abs_x) abs_x in
  let x_clz := c_shiftr I (mant w) (cvt_to_f X true nn x_clz) in
  let x_clz := v_subs16 X (ifill I (ilogb_bias w)) x_clz in
  let norm_off := v_sub I (ieee nn) x_clz (ifill I (expbits w + 1)) in
  let exp := v_sub I (ieee nn) exp (v_and norm_off fix_denorm) in
  v_sub I (ieee nn) exp (ifill I (exp_off w)).
(** logb.cpp 43-58: impl_ilogb *)
Definition k_ilogb (X : xty) (nn : nans) (il0 iln : Z) (x : vec) : vec :=
  let I := as_int X in
  let abs_x := v_abs_f X x in
  let y := eval_ilogb X nn abs_x in
  let y := blendv I y (ifill I il0) (cmp_eq X abs_x (zerov X)) in
  let y := blendv I y (ifill I (2 ^ (xw X - 1) - 1)) (isinf_abs X abs_x) in
  blendv I y (ifill I iln) (isunord X x x).
(** logb.cpp 68-88: impl_logb *)
Definition k_logb (X : xty) (nn : nans) (x : vec) : vec :=
  let F := ieee nn in
  let abs_x := v_abs_f X x in
  let y := cvt_to_f X true nn (eval_ilogb X nn abs_x) in
  let m := cmp_eq X abs_x (zerov X) in
  let y := if test_mask X m then except_divzero X F true y abs_x m else y in
  let dom_mask := v_or (isinf_abs X abs_x) (isunord X x x) in
  if test_mask X dom_mask then blendv X y (v_mul X F x x) dom_mask else y.
(** fmanip.hpp 289-311 ilogb(x), [J] is simd<int, N, A>: the result starts as {} and is filled by ilogb(x, out, i) (82-87, 168-170)
    and ilogb2 (88-93, 171-176), which store exactly like frexp (put_exps) *)
Definition x_ilogb (X J : xty) (nn : nans) (il0 iln : Z) (x : list vec) : res (list vec) :=
  put_exps X J (map (k_ilogb X nn il0 iln) x) (repeat (zerov J) (dsz J)).
(** fmanip.hpp 374-392 logb(x) *)
Definition x_logb (X : xty) (nn : nans) : list vec -> res (list vec) := vz1 X (fun x => Ok (k_logb X nn x)).
