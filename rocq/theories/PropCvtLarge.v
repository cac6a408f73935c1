(** C36, C47: the exact range of the conversions of doubles to 64-bit integers. *)
From Coq Require Import ZifyBool ZifyNat Reals Lra.
From Flocq Require Import Core IEEE754.BinarySingleNaN IEEE754.Binary.
From Verif Require Import Base Cxx Spec X86Vec X86 X86Lemmas X86Proofs X86Masks X86Ops Fp FpLemmas FpOps FKern FMath FMathProofs FLane FFields FManip FManipLanes PropX86 PropFloat PropManip RoundSem Round RoundVec Cvt CvtProofs PropCvt PropRound CvtLarge.
Set Implicit Arguments.

(** A double whose value is an int64 is converted right exactly when it is between -2^51 and 2^51: every other one, up to +-2^63, is converted to a different number. *)
Theorem C47_double_to_int64_iff : forall X (HX : xty_ok X), esz (xT X) = 8%nat -> forall nn,
  let P := fun x y => word 64 y /\ forall n, isfin F64 x = true -> val F64 x = IZR n -> (- 2 ^ 63 <= n < 2 ^ 63)%Z -> (sgn 64 y = n <-> (- 2 ^ 51 <= n <= 2 ^ 51)%Z) in
  load_gives X (cvt_of_f X true nn) P /\ store_gives X (cvt_of_f X true nn) P.
Proof.
  intros X HX E nn P. apply both with (k := f64_i64l nn); auto.
  - intros v Hv. apply k_f64_i64; auto.
  - intros x Hx. rewrite (@xw8 X E) in *. assert (Q : word 64 (f64_i64l nn x)) by (apply wrap_word; lia). split; auto. split; auto. intros n Fx Vx Hn. now apply i64_iff.
Qed.
Print Assumptions C47_double_to_int64_iff.
(** The same for uint64: right exactly below 2^52. *)
Theorem C47_double_to_uint64_iff : forall X (HX : xty_ok X), esz (xT X) = 8%nat -> forall nn,
  let P := fun x y => word 64 y /\ forall n, isfin F64 x = true -> val F64 x = IZR n -> (0 <= n < 2 ^ 64)%Z -> (y = n <-> (n < 2 ^ 52)%Z) in
  load_gives X (cvt_of_f X false nn) P /\ store_gives X (cvt_of_f X false nn) P.
Proof.
  intros X HX E nn P. apply both with (k := f64_u64l nn); auto.
  - intros v Hv. apply k_f64_u64; auto.
  - intros x Hx. rewrite (@xw8 X E) in *. split; [apply f64_u64l_word|]. split; [apply f64_u64l_word|]. intros n Fx Vx Hn. now apply u64_iff.
Qed.
Print Assumptions C47_double_to_uint64_iff.
Example C47_iff_case : let D := d2 sse4 in xty_ok D /\
  x_copy_to_cvt D (cvt_of_f D true nans0) Ok [[0x4320000000000000; 0x4320000000000002]]%Z [9; 9]%Z 0 = Ok [2 ^ 51; 2 ^ 51]%Z /\      (* 2^51, 2^51 + 1 *)
  x_copy_to_cvt D (cvt_of_f D false nans0) Ok [[0x432ffffffffffffe; 0x4330000000000000]]%Z [9; 9]%Z 0 = Ok [2 ^ 52 - 1; 7 * 2 ^ 52]%Z.   (* 2^52 - 1, 2^52 *)
Proof. intros D. split; [xok|vm_compute; split; reflexivity]. Qed.

(** lrint and llrint of double vectors have the same range. *)
Theorem C36_lrint_double_iff : forall nn X J x, xty_ok X -> is_int (xT X) = false -> esz (xT X) = 8%nat -> long_vec_of X J -> shaped X x ->
  let P := fun x r => forall n, isfin F64 x = true -> val F64 x = IZR n -> (- 2 ^ 63 <= n < 2 ^ 63)%Z -> (r = n <-> (- 2 ^ 51 <= n <= 2 ^ 51)%Z) in
  int_each 64 X J x (x_lrint X J nn x) P /\ int_each 64 X J x (x_llrint X J nn x) P.
Proof.
  intros nn X J x HX HF E8 HL Hx P. cut (int_each 64 X J x (x_lrint X J nn x) P). { intros H. split; exact H. } subst P.
  destruct (lrint_double HX HF nn E8 HL Hx) as (d & A & B & C). exists d. split; auto. split; auto. intros i xi Hi.
  exists (lrint1 (X := X) nn xi). split. { rewrite C. now apply map_nth_error. }
  intros n Fx Vx Hn. unfold lrint1. rewrite E8. cbn [Nat.eqb]. assert (Wx : word 64 xi). { pose proof (el_word _ Hx Hi) as W. unfold xw, ew in W. rewrite E8 in W. exact W. } now apply i64_iff.
Qed.
Print Assumptions C36_lrint_double_iff.
Example C36_lrint_iff_case : x_lrint (d2 sse4) {| xc := sse4; xT := {| esz := 8; ek := KInt true |}; xvs := 16; xN := 2 |} nans0 [[0xc320000000000000; 0xc320000000000002]]%Z = Ok [[2 ^ 64 - 2 ^ 51; 2 ^ 64 - 2 ^ 51 - 2]]%Z.   (* -2^51, -2^51 - 1 *)
Proof. vm_compute; reflexivity. Qed.
