(** C47, C36: double to int64, decided for every finite number whose nearest integer fits. *)
From Coq Require Import ZifyBool ZifyNat Reals Lra.
From Flocq Require Import Core IEEE754.BinarySingleNaN IEEE754.Binary.
From Verif Require Import Base Cxx Spec X86Vec X86 X86Lemmas X86Proofs X86Masks X86Ops Fp FpLemmas FpOps FKern FMath FMathProofs FLane FFields FManip FManipLanes PropX86 PropFloat PropManip RoundSem Round RoundVec Cvt CvtProofs PropCvt PropRound HypZero RintLarge CvtLarge PropCvtLarge CvtHalf.
Set Implicit Arguments.

Lemma i64_decided nn x : word 64 x -> isfin F64 x = true -> (- 2 ^ 63 <= ZnearestE (val F64 x) < 2 ^ 63)%Z ->
  (sgn 64 (f64_i64l nn x) = ZnearestE (val F64 x) <-> (- IZR (2 ^ 51) <= val F64 x <= IZR (2 ^ 51) + / 2)%R).
Proof.
  intros Wx Fx R. assert (C51 : IZR (2 ^ 51) = 2251799813685248%R) by reflexivity. assert (C51' : IZR (- 2 ^ 51) = (-2251799813685248)%R) by reflexivity.
  assert (INT : forall n, val F64 x = IZR n -> (sgn 64 (f64_i64l nn x) = ZnearestE (val F64 x) <-> (- IZR (2 ^ 51) <= val F64 x <= IZR (2 ^ 51) + / 2)%R)).
  { intros n Vx. rewrite Vx, near_int in R |- *. rewrite (@i64_iff nn x n Wx Fx Vx R). split.
    - intros [A B]. apply IZR_le in A, B. rewrite C51' in A. lra.
    - intros [A B]. split; [apply le_IZR; lra|]. assert (n < 2 ^ 51 + 1)%Z; [|lia]. apply lt_IZR. rewrite plus_IZR. lra. }
  destruct (Rle_lt_dec (Rabs (val F64 x)) 2251799813685248) as [L|L].
  { apply Rabs_le_inv in L. split; [intros _; lra|]. intros _. rewrite (f64_i64l_ok nn Wx Fx) by lra. apply sgn_wrap; [lia|]. exact R. }
  destruct (Rle_lt_dec 4503599627370496 (Rabs (val F64 x))) as [H|H].
  { destruct (@mult_of (val F64 x) 52 (@fmt_val F64 x) H) as [n En]. apply (INT n). rewrite En. cbn. ring. }
  destruct (@mult_of (val F64 x) 51 (@fmt_val F64 x)) as [h Eh]. { change (bpow radix2 51) with 2251799813685248%R. lra. }
  change (bpow radix2 (51 - 52)) with (/ 2)%R in Eh. destruct (Z.odd h) eqn:O.
  2: { rewrite <- Z.negb_even in O. apply Bool.negb_false_iff, Z.even_spec in O. destruct O as [q ->]. apply (INT q). rewrite Eh, mult_IZR. lra. }
  assert (Vx : val F64 x = (IZR h / 2)%R) by exact Eh. destruct (Rle_lt_dec 0 (val F64 x)) as [P|P].
  - rewrite Rabs_pos_eq in L, H by auto. assert (Hh : (2 ^ 52 < h < 2 ^ 53)%Z) by (split; apply lt_IZR; [change (IZR (2 ^ 52)) with 4503599627370496%R|change (IZR (2 ^ 53)) with 9007199254740992%R]; lra).
    rewrite (@half_pos nn x h Wx Fx Vx O Hh), Vx, C51. split.
    + intros ->. rewrite plus_IZR. change (IZR (2 ^ 52)) with 4503599627370496%R. lra.
    + intros [_ B]. assert (h < 2 ^ 52 + 2)%Z; [|lia]. apply lt_IZR. rewrite plus_IZR. change (IZR (2 ^ 52)) with 4503599627370496%R. lra.
  - rewrite Rabs_left in L, H by auto. assert (Hh : (- 2 ^ 53 < h < - 2 ^ 52)%Z) by (split; apply lt_IZR; [change (IZR (- 2 ^ 53)) with (-9007199254740992)%R|change (IZR (- 2 ^ 52)) with (-4503599627370496)%R]; lra).
    split; [intros Q; exfalso; exact (@half_neg nn x h Wx Fx Vx O Hh Q)|intros [A _]; exfalso; lra].
Qed.

(** A finite double whose nearest integer is an int64 is converted to that integer exactly when -2^51 <= x <= 2^51 + 1/2. *)
Theorem C47_double_to_int64_decided : forall X (HX : xty_ok X), esz (xT X) = 8%nat -> forall nn,
  let P := fun x y => word 64 y /\ (isfin F64 x = true -> (- 2 ^ 63 <= ZnearestE (val F64 x) < 2 ^ 63)%Z ->
    (sgn 64 y = ZnearestE (val F64 x) <-> (- IZR (2 ^ 51) <= val F64 x <= IZR (2 ^ 51) + / 2)%R)) in
  load_gives X (cvt_of_f X true nn) P /\ store_gives X (cvt_of_f X true nn) P.
Proof.
  intros X HX E nn P. apply both with (k := f64_i64l nn); auto.
  - intros v Hv. apply k_f64_i64; auto.
  - intros x Hx. rewrite (@xw8 X E) in *. assert (Q : word 64 (f64_i64l nn x)) by (apply wrap_word; lia). split; auto. split; auto. intros Fx R. now apply i64_decided.
Qed.
Print Assumptions C47_double_to_int64_decided.
(** 2^51 + 1/2 right (2^51), 2^51 + 3/2 wrong (2^51 + 1 instead of 2^51 + 2), -2^51 - 1/2 wrong (-2^51 - 1 instead of -2^51) *)
Example C47_double_to_int64_decided_case : let D := d2 sse4 in xty_ok D /\
  x_copy_to_cvt D (cvt_of_f D true nans0) Ok [[0x4320000000000001; 0x4320000000000003]]%Z [9; 9]%Z 0 = Ok [2 ^ 51; 2 ^ 51 + 1]%Z /\
  x_copy_to_cvt D (cvt_of_f D true nans0) Ok [[0xc320000000000001; 0xc320000000000000]]%Z [9; 9]%Z 0 = Ok [2 ^ 64 - 2 ^ 51 - 1; 2 ^ 64 - 2 ^ 51]%Z.
Proof. intros D. split; [xok|vm_compute; split; reflexivity]. Qed.

(** the same for lrint and llrint of doubles *)
Theorem C36_lrint_double_decided : forall nn X J x, xty_ok X -> is_int (xT X) = false -> esz (xT X) = 8%nat -> long_vec_of X J -> shaped X x ->
  let P := fun x r => isfin F64 x = true -> (- 2 ^ 63 <= ZnearestE (val F64 x) < 2 ^ 63)%Z ->
    (r = ZnearestE (val F64 x) <-> (- IZR (2 ^ 51) <= val F64 x <= IZR (2 ^ 51) + / 2)%R) in
  int_each 64 X J x (x_lrint X J nn x) P /\ int_each 64 X J x (x_llrint X J nn x) P.
Proof.
  intros nn X J x HX HF E8 HL Hx P. cut (int_each 64 X J x (x_lrint X J nn x) P). { intros H. split; exact H. } subst P.
  destruct (lrint_double HX HF nn E8 HL Hx) as (d & A & B & C). exists d. split; auto. split; auto. intros i xi Hi.
  exists (lrint1 (X := X) nn xi). split. { rewrite C. now apply map_nth_error. }
  intros Fx R. unfold lrint1. rewrite E8. cbn [Nat.eqb]. assert (Wx : word 64 xi). { pose proof (el_word _ Hx Hi) as W. unfold xw, ew in W. rewrite E8 in W. exact W. } now apply i64_decided.
Qed.
Print Assumptions C36_lrint_double_decided.
Example C36_lrint_double_decided_case : x_lrint (d2 sse4) {| xc := sse4; xT := {| esz := 8; ek := KInt true |}; xvs := 16; xN := 2 |} nans0 [[0x4320000000000001; 0xc320000000000001]]%Z = Ok [[2 ^ 51; 2 ^ 64 - 2 ^ 51 - 1]]%Z.   (* 2^51 + 1/2 right, -2^51 - 1/2 wrong *)
Proof. vm_compute; reflexivity. Qed.
