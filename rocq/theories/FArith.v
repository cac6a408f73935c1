(** Model of fma / fmadd / fmsub / fnmadd / fnmsub, fdim and lerp of the x86 backend: /repo/dpm/detail/x86/mbase.hpp.

    [fm] is DPM_HAS_FMA.  The fused instructions round a*b+c once (Fp.ffma); the negated operands of vfmsub/vfnmadd/vfnmsub are
    modelled by flipping the sign bit, which differs from the hardware only in the payload of a NaN result.
    fmax and fmin (lines 298-331, 352-385) call isunord with one argument and cannot be instantiated; the constexpr branch of lerp
    calls fmax with three arguments.  They are not modelled. *)
From Coq Require Import ZifyBool ZifyNat.
From Flocq Require Import IEEE754.BinarySingleNaN.
From Verif Require Import Base Cxx X86Vec X86 Fp FMath FMathProofs.

Definition fneg (w x : Z) : Z := Z.lxor x (2 ^ (w - 1)).
(** detail::fmadd 32-39, 90-97, 187-194, 220-227 (fmadd_sse 14-17, 71-74; fmadd_avx 149-152, 168-171) *)
Definition v_fmadd (X : xty) (fm : bool) (nn : nans) (a b c : vec) : vec :=
  if fm then vmap3 (ffma nn (xf X)) a b c else v_add X (ieee nn) (v_mul X (ieee nn) a b) c.
(** detail::fmsub 40-47, 98-105, 195-202, 228-235 (fmsub_sse 18-21, 75-78; fmsub_avx 153-156, 172-175) *)
Definition v_fmsub (X : xty) (fm : bool) (nn : nans) (a b c : vec) : vec :=
  if fm then vmap3 (fun a b c => ffma nn (xf X) a b (fneg (xw X) c)) a b c else v_sub X (ieee nn) (v_mul X (ieee nn) a b) c.
(** detail::fnmadd 48-55, 106-113, 203-210, 236-243 (fnmadd_sse 22-25, 79-82; fnmadd_avx 157-160, 176-179) *)
Definition v_fnmadd (X : xty) (fm : bool) (nn : nans) (a b c : vec) : vec :=
  if fm then vmap3 (fun a b c => ffma nn (xf X) (fneg (xw X) a) b c) a b c else v_sub X (ieee nn) c (v_mul X (ieee nn) a b).
(** detail::fnmsub 56-63, 114-121, 211-218, 244-251 (fnmsub_sse 26-30, 83-88, fnmsub_avx 161-166, 180-185: 0 - (a * b + c)) *)
Definition v_fnmsub (X : xty) (fm : bool) (nn : nans) (a b c : vec) : vec :=
  if fm then vmap3 (fun a b c => ffma nn (xf X) (fneg (xw X) a) b (fneg (xw X) c)) a b c
  else v_sub X (ieee nn) (zerov X) (v_fmadd X false nn a b c).

(** ext::fmadd 445-461, fmsub 463-479, fnmadd 481-497, fnmsub 499-515; fma 519-520 *)
Definition x_fmadd (X : xty) (fm : bool) (nn : nans) := vz3 X (fun a b c => Ok (v_fmadd X fm nn a b c)).
Definition x_fmsub (X : xty) (fm : bool) (nn : nans) := vz3 X (fun a b c => Ok (v_fmsub X fm nn a b c)).
Definition x_fnmadd (X : xty) (fm : bool) (nn : nans) := vz3 X (fun a b c => Ok (v_fnmadd X fm nn a b c)).
Definition x_fnmsub (X : xty) (fm : bool) (nn : nans) := vz3 X (fun a b c => Ok (v_fnmsub X fm nn a b c)).
Definition x_fma := x_fmadd.

(** fdim 334-349; with a scalar 388-403 *)
Definition v_fdim (X : xty) (nn : nans) (a b : vec) : vec := v_max X (zerov X) (v_sub X (ieee nn) a b).
Definition x_fdim (X : xty) (nn : nans) := vz2 X (fun a b => Ok (v_fdim X nn a b)).
Definition x_fdim_s (X : xty) (nn : nans) (a : list vec) (b : Z) := vz1 X (fun a => Ok (v_fdim X nn a (v_fill X b))) a.
(** lerp 406-422; with a scalar 424-440 *)
Definition v_lerp (X : xty) (fm : bool) (nn : nans) (a b f : vec) : vec := v_fmadd X fm nn (v_sub X (ieee nn) b a) f a.
Definition x_lerp (X : xty) (fm : bool) (nn : nans) := vz3 X (fun a b f => Ok (v_lerp X fm nn a b f)).
Definition x_lerp_s (X : xty) (fm : bool) (nn : nans) (a b : list vec) (f : Z) := vz2 X (fun a b => Ok (v_lerp X fm nn a b (v_fill X f))) a b.
