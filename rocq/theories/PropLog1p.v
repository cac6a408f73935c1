(** C67: accuracy of log1p over its whole domain. *)
From Coq Require Import ZifyBool ZifyNat Reals Lra.
From Flocq Require Import Core IEEE754.BinarySingleNaN IEEE754.Binary.
From Verif Require Import Base Cxx Spec X86Vec X86 X86Lemmas X86Proofs X86Ops Fp FpLemmas FpOps FMath FMathProofs FLane FManip PropX86 PropFloat PropManip PropCvt FArith Log LogProofs PropLog PropSin PropLogAcc Log1pAcc.
Set Implicit Arguments.

(** log1p, every finite x > -1, every build and option: the result is finite and its error is at most 9 machine epsilons times 1 + |ln (1 + x)|
    (the relative error alone is not bounded near 0: C51) *)
Theorem C67_log1p_accuracy : forall nn X fm pn he a, xty_ok X -> is_int (xT X) = false -> shaped X a ->
  each1 X a (x_log1p X fm pn he nn a) (fun x y => isfin (xf X) x = true -> (-1 < val (xf X) x)%R ->
    within (xf X) (9 * epsilon (xf X) * (1 + Rabs (ln (1 + val (xf X) x)))) (ln (1 + val (xf X) x)) y).
Proof.
  intros nn X fm pn he a HX HF Ha. eapply (lw_each HX HF _ (k_log1p_lw HX HF fm pn he nn)); auto. intros v Hv Fv Vv. now apply log1p_lane.
Qed.
Print Assumptions C67_log1p_accuracy.
(** 1, -1/2, 2^25 - 2, -1 + 2^-24 *)
Example C67_log1p_case : exists v, xty_ok (f4 sse2) /\ x_log1p (f4 sse2) false true true nans0 [[0x3f800000; 0xbf000000; 0x4bffffff; 0xbf7fffff]]%Z = Ok v /\ length v = 1%nat.
Proof. eexists. split; [xok|]. split; vm_compute; reflexivity. Qed.
