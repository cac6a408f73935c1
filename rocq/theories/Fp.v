(** IEEE-754 binary32/binary64 lanes: bit patterns, their meaning and the arithmetic of SSE/AVX.

    The meaning of a bit pattern is Flocq's [binary_float_of_bits]; the arithmetic instructions are Flocq's
    correctly rounded operations in round-to-nearest-even (the default MXCSR mode: trusted base).  Which NaN an
    invalid or NaN-consuming operation returns is left open: [nans] is universally quantified in every theorem. *)
From Coq Require Import ZifyBool Reals Lra.
From Flocq Require Import Core IEEE754.BinarySingleNaN IEEE754.Binary IEEE754.Bits.
From Verif Require Import Base Cxx Spec X86Vec.
Open Scope Z_scope.

Inductive fmt := F32 | F64.
(** mantissa (trailing significand) bits, exponent bits, total width *)
Definition mw (f : fmt) : Z := match f with F32 => 23 | F64 => 52 end.
Definition eb (f : fmt) : Z := match f with F32 => 8 | F64 => 11 end.
Definition fw (f : fmt) : Z := match f with F32 => 32 | F64 => 64 end.
Definition prec (f : fmt) : Z := mw f + 1.
Definition emax (f : fmt) : Z := 2 ^ (eb f - 1).
Definition bfl (f : fmt) := binary_float (prec f) (emax f).

Lemma Hmw f : 0 < mw f. Proof. destruct f; reflexivity. Qed.
Lemma Heb f : 0 < eb f. Proof. destruct f; reflexivity. Qed.
Lemma Hpe f : mw f + 1 < 2 ^ (eb f - 1). Proof. destruct f; reflexivity. Qed.
#[global] Instance Hprec f : Prec_gt_0 (prec f). Proof. destruct f; reflexivity. Qed.
#[global] Instance Hprec_emax f : Prec_lt_emax (prec f) (emax f). Proof. destruct f; reflexivity. Qed.

(** the float a bit pattern denotes, and the bit pattern of a float *)
Definition dec (f : fmt) (x : Z) : bfl f := binary_float_of_bits (mw f) (eb f) (Hmw f) (Heb f) (Hpe f) x.
Definition enc (f : fmt) (x : bfl f) : Z := bits_of_binary_float (mw f) (eb f) x.

(** real value (0 for infinities and NaN), sign, class *)
Definition val (f : fmt) (x : Z) : R := B2R _ _ (dec f x).
Definition isfin (f : fmt) (x : Z) : bool := is_finite _ _ (dec f x).
Definition isnanb (f : fmt) (x : Z) : bool := is_nan _ _ (dec f x).
(** correct rounding to the format, nearest even *)
Definition rnd (f : fmt) (r : R) : R := round radix2 (SpecFloat.fexp (prec f) (emax f)) ZnearestE r.
(** IEEE comparison *)
Definition fcmp (f : fmt) (a b : Z) : option comparison := Bcompare _ _ (dec f a) (dec f b).

(** *** Arithmetic *)
Inductive aop := Oadd | Osub | Omul | Odiv.
Definition nan_of f := {x : bfl f | is_nan _ _ x = true}.
Record nans := {
  n2 : aop -> forall f, bfl f -> bfl f -> nan_of f;
  n3 : forall f, bfl f -> bfl f -> bfl f -> nan_of f;
  n1 : forall f, bfl f -> nan_of f;
  nc : forall f g, bfl f -> nan_of g }.

Section Ops.
Context (nn : nans) (f : fmt).
(** addps/addpd, subps, mulps, divps *)
Definition fadd (a b : Z) : Z := enc f (Bplus _ _ (Hprec f) (Hprec_emax f) (n2 nn Oadd f) mode_NE (dec f a) (dec f b)).
Definition fsub (a b : Z) : Z := enc f (Bminus _ _ (Hprec f) (Hprec_emax f) (n2 nn Osub f) mode_NE (dec f a) (dec f b)).
Definition fmul (a b : Z) : Z := enc f (Bmult _ _ (Hprec f) (Hprec_emax f) (n2 nn Omul f) mode_NE (dec f a) (dec f b)).
Definition fdiv (a b : Z) : Z := enc f (Bdiv _ _ (Hprec f) (Hprec_emax f) (n2 nn Odiv f) mode_NE (dec f a) (dec f b)).
(** vfmadd: a * b + c *)
Definition ffma (a b c : Z) : Z :=
  enc f (Bfma _ _ (Hprec f) (Hprec_emax f) (n3 nn f) mode_NE (dec f a) (dec f b) (dec f c)).
(** sqrtps *)
Definition fsqrt (a : Z) : Z := enc f (Bsqrt _ _ (Hprec f) (Hprec_emax f) (n1 nn f) mode_NE (dec f a)).
(** roundps with an immediate rounding mode *)
Definition fround (md : mode) (a : Z) : Z := enc f (Bnearbyint _ _ (Hprec_emax f) (n1 nn f) md (dec f a)).
(** cvtps_pd, cvtpd_ps: conversion to the format [g] *)
Definition fcvt (g : fmt) (a : Z) : Z :=
  enc g (match dec f a with
         | B754_zero _ _ s => B754_zero _ _ s
         | B754_infinity _ _ s => B754_infinity _ _ s
         | B754_nan _ _ _ _ _ => proj1_sig (nc nn f g (dec f a))
         | B754_finite _ _ s m e _ => binary_normalize _ _ (Hprec g) (Hprec_emax g) mode_NE (SpecFloat.cond_Zopp s (Zpos m)) e s
         end).
End Ops.

Definition fmt_of (w : Z) : fmt := if w =? 32 then F32 else F64.
(** the instance of the float operations used so far as uninterpreted functions *)
Definition ieee (nn : nans) : fops :=
  {| f_add := fun w => fadd nn (fmt_of w); f_sub := fun w => fsub nn (fmt_of w);
     f_mul := fun w => fmul nn (fmt_of w); f_div := fun w => fdiv nn (fmt_of w) |}.

(** An instance of the NaN choice (the default quiet NaN), so that the theorems are not vacuous. *)
Definition dnan (f : fmt) : nan_of f := exist _ (dec f (finf (fw f) + 2 ^ (mw f - 1)))
  (match f return is_nan _ _ (dec f (finf (fw f) + 2 ^ (mw f - 1))) = true with F32 => eq_refl | F64 => eq_refl end).
Definition nans0 : nans := {| n2 := fun _ f _ _ => dnan f; n3 := fun f _ _ _ => dnan f; n1 := fun f _ => dnan f;
  nc := fun _ g _ => dnan g |}.

Close Scope Z_scope.
