-Q theories Verif
theories/Base.v
theories/Cxx.v
theories/Spec.v
theories/Generic.v
theories/GenericProofs.v
theories/PropGeneric.v
theories/X86Vec.v
theories/X86.v
theories/X86Lemmas.v
theories/X86Proofs.v
theories/X86Masks.v
theories/X86Ops.v
theories/X86Mem.v
theories/X86Shift.v
theories/Alias.v
theories/X86Scalar.v
theories/X86MaskSpec.v
theories/X86Prog.v
theories/X86ProgProofs.v
theories/PropX86.v
theories/X86Reduce.v
theories/X86ReduceProofs.v
theories/PropX86Reduce.v
theories/X86Shuffle.v
theories/X86ShuffleProofs.v
theories/PropX86Shuffle.v
theories/Cpuid.v
theories/PropCpuid.v
theories/Abi.v
theories/PropAbi.v
theories/Fp.v
theories/FpLemmas.v
theories/FpOps.v
theories/FKern.v
theories/FMath.v
theories/FMathProofs.v
theories/FNext.v
theories/PropFloat.v
theories/FLane.v
theories/FManip.v
theories/FManipLanes.v
theories/FFields.v
theories/FScalbn.v
theories/FFrexp.v
theories/FModf.v
theories/FRoute.v
theories/FRouteProofs.v
theories/PropManip.v
theories/Cvt.v
theories/CvtProofs.v
theories/PropCvt.v
theories/Logb.v
theories/LogbProofs.v
theories/PropLogb.v
theories/Round.v
theories/RoundProofs.v
theories/RoundLanes.v
theories/RoundSem.v
theories/RoundVec.v
theories/PropRound.v
theories/FArith.v
theories/PropArith.v
theories/FCvt.v
theories/Hypot.v
theories/HypotProofs.v
theories/HypotSem.v
theories/PropHypot.v
theories/PropIeee.v
theories/LogTab.v
theories/Log.v
theories/LogProofs.v
theories/PropLog.v
theories/TrigTab.v
theories/Trig.v
theories/TrigProofs.v
theories/PropTrig.v
theories/FErr.v
theories/PiBound.v
theories/IvPoly.v
theories/SinPoly.v
theories/SinEval.v
theories/SinRed.v
theories/SinAcc.v
theories/PropSin.v
theories/LnBound.v
theories/LogRed.v
theories/LogAcc.v
theories/LogNum.v
theories/LogTot.v
theories/LogFin.v
theories/PropLogAcc.v
theories/Log10Acc.v
theories/PropLog10.v
theories/PropTrigSpec.v
theories/PropTan.v
theories/ArcSer.v
theories/RatPoly.v
theories/ArcKern.v
theories/ArcNum.v
theories/ArcAtan.v
theories/ArcAsin.v
theories/PropArc.v
theories/GMath.v
theories/GRound.v
theories/PropGMath.v
theories/CEval.v
theories/PropCEval.v
theories/HypNum.v
theories/HypSplit.v
theories/HypAcc.v
theories/HypDbl.v
theories/HypFlt.v
theories/PropHypAcc.v
theories/HypZero.v
theories/PropHypZero.v
theories/CvtLarge.v
theories/PropCvtLarge.v
theories/PropFrexpLdexp.v
theories/PropRoundLaws.v
theories/RintLarge.v
theories/PropRintLarge.v
theories/PropNextBack.v
theories/PropRoundRange.v
theories/Log1pAcc.v
theories/PropLog1p.v
theories/Rsqrt.v
theories/PropRsqrt.v
theories/CVec.v
theories/PropCVec.v
theories/PropRoundFar.v
theories/PropRoundFar2.v
theories/CvtHalf.v
theories/PropCvtHalf.v
theories/PropCvtU.v
theories/PropCvtU32.v
theories/PropCvtU32F.v
theories/PropCvtI64.v
theories/PropLdexpMax.v
