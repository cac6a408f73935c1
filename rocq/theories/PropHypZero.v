(** C43: hypot with a zero operand, all doubles. *)
From Coq Require Import ZifyBool ZifyNat Reals Lra.
From Flocq Require Import Core IEEE754.BinarySingleNaN IEEE754.Binary.
From Verif Require Import Base Cxx Spec X86Vec X86 X86Lemmas X86Proofs X86Masks X86Ops X86Shift Fp FpLemmas FpOps FKern FMath FMathProofs FLane FManip FManipLanes PropX86 PropFloat PropManip PropCvt PropRound FArith PropArith FCvt Hypot HypotProofs HypotSem PropHypot HypDbl HypZero.
Set Implicit Arguments.

(** hypot(x, +-0) and hypot(+-0, x) of double vectors are exactly |x|, for every x that is not NaN: normal, subnormal, zero or infinite. *)
Theorem C43_double_zero : forall nn X fm pn a b, xty_ok X -> is_int (xT X) = false -> esz (xT X) = 8%nat -> shaped X a -> shaped X b ->
  each2 X a b (x_hypot X fm pn nn a b) (fun x y r =>
    (iszero F64 y -> isnanb F64 x = false -> r = absbits F64 x) /\
    (iszero F64 x -> isnanb F64 y = false -> r = absbits F64 y)).
Proof.
  intros nn X fm pn a b HX HF E8 Ha Hb. apply hyp_each; auto. rewrite (Ef8 E8). intros x y Hx Hy. destruct (@hypd_all X HX HF E8 nn fm pn x y Hx Hy) as (_ & _ & _ & _ & H5 & H6 & _).
  assert (Q : forall z, (topd (fmag 64 z) = 0 \/ 65 * 2 ^ 20 <= topd (fmag 64 z) \/ 0 < topd (fmag 64 z) < 65 * 2 ^ 20)%Z). { intros z. unfold topd. assert (0 <= fmag 64 z)%Z by (unfold fmag; apply Z.mod_pos_bound; lia). assert (0 <= fmag 64 z / 2 ^ 32)%Z by (apply Z.div_pos; lia). lia. }
  assert (A : forall z, absbits F64 z = fmag 64 z) by reflexivity.
  assert (Er : hyp1 (X := X) nn fm pn x y = hypd (X := X) nn fm pn (hia (X := X) x y) (hib (X := X) x y)) by (rewrite hypd_eq by auto; reflexivity).
  assert (NN : fnan 64 x = false -> fnan 64 y = false -> hia (X := X) x y = Z.max (fmag 64 x) (fmag 64 y) /\ hib (X := X) x y = Z.min (fmag 64 x) (fmag 64 y)). { rewrite <- (Ew8 E8). apply hia_max; auto; rewrite (Ew8 E8); auto. }
  assert (N0 : forall z, fmag 64 z = 0%Z -> fnan 64 z = false) by (intros z H; unfold fnan; rewrite H; reflexivity).
  assert (P : forall z, (0 <= fmag 64 z)%Z) by (intros z; unfold fmag; apply Z.mod_pos_bound; lia). pose proof (P x) as Px. pose proof (P y) as Py.
  split; intros Z N.
  - destruct (Q x) as [T|[T|T]]; [apply H5; auto|apply H5; auto|]. apply (@iszero_mag F64) in Z; [|exact Hy]. change (fw F64) with 64%Z in Z. rewrite (@isnan_spec F64 x Hx) in N. rewrite Er. destruct (NN N (N0 _ Z)) as [-> ->]. rewrite Z, Z.max_l, Z.min_r by lia. rewrite A. now apply hypd_mid.
  - destruct (Q y) as [T|[T|T]]; [apply H6; auto|apply H6; auto|]. apply (@iszero_mag F64) in Z; [|exact Hx]. change (fw F64) with 64%Z in Z. rewrite (@isnan_spec F64 y Hy) in N. rewrite Er. destruct (NN (N0 _ Z) N) as [-> ->]. rewrite Z, Z.max_r, Z.min_l by lia. rewrite A. now apply hypd_mid.
Qed.
Print Assumptions C43_double_zero.
Example C43_double_zero_case : xty_ok (d2 haswell) /\   (* -2^-1000 * 1.1, 0 and -0, pi * 2^-1040 *)
  x_hypot (d2 haswell) true false nans0 [[0x817199999999999a; 0]]%Z [[0x8000000000000000; 0x3243f6a88]]%Z = Ok [[0x017199999999999a; 0x3243f6a88]]%Z.
Proof. split; [xok|vm_compute; reflexivity]. Qed.
