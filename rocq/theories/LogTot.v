(** The rounding and approximation errors of log and log2 as a function of the exponent, checked by computation. *)
From Coq Require Import ZifyBool ZifyNat Reals Lra.
From Flocq Require Import Core IEEE754.BinarySingleNaN IEEE754.Binary.
From Verif Require Import Base Cxx Spec X86Vec X86 X86Lemmas X86Proofs X86Ops Fp FpLemmas FpOps FMath FMathProofs FLane FFields FManip FManipLanes PropManip Round RoundProofs RoundSem FArith Cvt CvtProofs LogbProofs PropArith FCvt PropHypot PropIeee FRoute FRouteProofs LogTab Log LogProofs PropLog
  FErr IvPoly TrigTab SinPoly LnBound LogRed LogAcc LogNum.
Set Implicit Arguments.
Open Scope Z_scope.
Definition totchk (b : bool) (f : fmt) (lo hi : Z) : bool := let p := roundE b f hi in snd p && (fst p + 2 * (hi * dlZ b f + tolZ b f + peZ b f) <=? AZ b f + SZ b f * lo).
Lemma tot_all b f : cover (totchk b f) 0 (his (match f with F32 => 24 | F64 => 36 end) 0) && (emax f <=? last (his (match f with F32 => 24 | F64 => 36 end) 0) (-1)) = true.
Proof. destruct b, f; vm_compute; reflexivity. Qed.
Lemma tot_ok b f ak : 0 <= ak <= emax f -> exists hi, ak <= hi /\ snd (roundE b f hi) = true /\ totE b f hi <= AZ b f + SZ b f * ak.
Proof.
  intros H. pose proof (tot_all b f) as T. apply andb_prop in T. destruct T as [T1 T2]. apply Z.leb_le in T2.
  destruct (@cover_ok _ _ 0 ak T1) as (p & q & B & C). { split; [apply H|]. change (0 - 1) with (-1). lia. }
  unfold totchk in C. cbv zeta in C. fold (totE b f q) in C. apply andb_prop in C. destruct C as [C1 C2]. apply Z.leb_le in C2. exists q. split; [lia|]. split; auto.
  assert (0 <= SZ b f) by (destruct b, f; discriminate). nia.
Qed.
Close Scope Z_scope.
