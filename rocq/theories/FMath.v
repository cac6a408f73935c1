(** Model of the float classification, sign and nextafter functions of the x86 backend:
    /repo/dpm/detail/x86/{class,mbase,fmanip}.hpp and nextafter.cpp.  The run-time branches are modelled. *)
From Coq Require Import ZifyBool ZifyNat.
From Verif Require Import Base Cxx X86Vec X86.

(** *** mbase.hpp *)
(** isunord: _mm_cmpunord_ps/pd, 61, 118, 253-254 *)
Definition isunord (X : xty) : vec -> vec -> vec := cmp_ps (xw X) (fun x y => fnan (xw X) x || fnan (xw X) y).
(** abs<float>, abs<double>: 64, 121, 256-259: and with 0x7fff... *)
Definition v_abs_f (X : xty) (x : vec) : vec := v_and x (v_fill X (2 ^ (xw X - 1) - 1)%Z).
(** abs<integral>: _mm_abs_epi8/16/32 with SSSE3 (131-136) or AVX2 for 256-bit vectors (262-267), for unsigned
    element types too; otherwise 122-127: t = x >> (digits - 1) (logical), (x ^ t) - t.  AVX512 is not modelled. *)
Definition v_abs_i (X : xty) (F : fops) (x : vec) : vec :=
  if negb (esz (xT X) =? 8) && (if is256 X then avx2 (xc X) else ssse3 (xc X)) then
    vmap (fun x => wrap (xw X) (Z.abs (sgn (xw X) x))) x
  else
    let digits := (xw X - (if isg (ity_of (xT X)) then 1 else 0))%Z in
    let t := c_shiftr X (digits - 1) x in
    v_sub X F (v_xor x t) t.
Definition v_abs (X : xty) (F : fops) (x : vec) : vec := if is_int (xT X) then v_abs_i X F x else v_abs_f X x.
(** abs, 277-291; fabs, 293-294 *)
Definition x_abs (X : xty) (F : fops) := vz1 X (fun x => Ok (v_abs X F x)).
Definition x_fabs (X : xty) (F : fops) := x_abs X F.

(** *** fmanip.hpp *)
(** masksign 15-16, copysign 17-18 *)
Definition masksign (X : xty) (x : vec) : vec := v_and x (v_fill X (2 ^ (xw X - 1))%Z).
Definition v_copysign (X : xty) (x m : vec) : vec := v_or (v_abs_f X x) m.
(** copysign(x, sign) 396-411, copysign(x, T) 413-428 *)
Definition x_copysign (X : xty) := vz2 X (fun x s => Ok (v_copysign X x (masksign X s))).
Definition x_copysign_s (X : xty) (x : list vec) (s : Z) : res (list vec) :=
  let sign_vec := masksign X (v_fill X s) in vz1 X (fun x => Ok (v_copysign X x sign_vec)) x.

(** *** class.hpp *)
(** isinf_abs 13-16, 39-42, 67-70, 86-89 *)
Definition isinf_abs (X : xty) (x : vec) : vec := cmp_ps (xw X) (feq (xw X)) x (v_fill X (finf (xw X))).
(** isfinite_abs 17-25, 43-51 (AVX: _CMP_NEQ_OQ, otherwise cmplt), 71-74, 90-93 *)
Definition neq_oq (w x y : Z) : bool := negb (fnan w x) && negb (fnan w y) && negb (feq w x y).
Definition isfinite_abs (X : xty) (x : vec) : vec :=
  if avx (xc X) then cmp_ps (xw X) (neq_oq (xw X)) x (v_fill X (finf (xw X)))
  else cmp_ps (xw X) (flt (xw X)) x (v_fill X (finf (xw X))).
(** isnormal_abs 26-31, 52-57, 75-80, 94-99: !(inf <= x) & !(x < norm_min) *)
Definition isnormal_abs (X : xty) (x : vec) : vec :=
  v_and (cmp_ps (xw X) (fun a b => negb (fle (xw X) a b)) (v_fill X (finf (xw X))) x)
        (cmp_ps (xw X) (fun a b => negb (flt (xw X) a b)) x (v_fill X (2 ^ mant (xw X))%Z)).
(** isnan 104-119, isinf 120-135, isfinite 136-151, isnormal 152-167, signbit 168-183 *)
Definition x_isnan (X : xty) := vz1 X (fun x => Ok (isunord X x x)).
Definition x_isinf (X : xty) := vz1 X (fun x => Ok (isinf_abs X (v_abs_f X x))).
Definition x_isfinite (X : xty) := vz1 X (fun x => Ok (isfinite_abs X (v_abs_f X x))).
Definition x_isnormal (X : xty) := vz1 X (fun x => Ok (isnormal_abs X (v_abs_f X x))).
Definition x_signbit (X : xty) := vz1 X (fun x => Ok (masksign X x)).
(** isgreater 185-201 (cmp_lt(b, a)), isgreaterequal 202-218 (cmp_le(b, a)), isless 219-235 (cmp_gt(b, a)),
    islessequal 236-252 (cmp_ge(b, a)), islessgreater 253-269 (cmp_le(b, a) | cmp_ge(b, a)), isunordered 270-286 *)
Definition x_isgreater (X : xty) := vz2 X (fun a b => Ok (cmp_lt_f X b a)).
Definition x_isgreaterequal (X : xty) := vz2 X (fun a b => Ok (cmp_le_f X b a)).
Definition x_isless (X : xty) := vz2 X (fun a b => Ok (cmp_gt X b a)).
Definition x_islessequal (X : xty) := vz2 X (fun a b => Ok (cmp_ge_f X b a)).
Definition x_islessgreater (X : xty) := vz2 X (fun a b => Ok (v_or (cmp_le_f X b a) (cmp_ge_f X b a))).
Definition x_isunordered (X : xty) := vz2 X (fun a b => Ok (isunord X a b)).

(** *** nextafter.cpp 12-39 with DPM_PROPAGATE_NAN defined (the default option) *)
Definition k_nextafter (X : xty) (F : fops) (a b : vec) : vec :=
  let I := as_int X in
  let sb := v_fill X (2 ^ (xw X - 1))%Z in
  let a_sign := v_and a sb in
  let b_sign := v_and b sb in
  let abs_a := v_xor a a_sign in
  let abs_b := v_xor b b_sign in
  let zero_mask := cmp_eq I abs_a (zerov I) in
  let sub_mask := v_or (cmp_gt I (zerov I) (v_xor a_sign b_sign)) (cmp_gt I abs_a abs_b) in
  let x_off := v_or (v_fill I 1%Z) sub_mask in
  let ia := blendv I (v_add I F a x_off) (v_or b_sign (v_fill I 1%Z)) zero_mask in
  let eq_mask := cmp_eq X a b in
  let nan_mask := isunord X a b in
  let c := blendv X ia (v_or a b) nan_mask in
  blendv X c b eq_mask.
(** fmanip.hpp 316-332 *)
Definition x_nextafter (X : xty) (F : fops) := vz2 X (fun a b => Ok (k_nextafter X F a b)).
