(** C34: int64 to double on the SSE4.1 path, decided. *)
From Coq Require Import ZifyBool ZifyNat Reals Lra.
From Flocq Require Import Core IEEE754.BinarySingleNaN IEEE754.Binary.
From Verif Require Import Base Cxx Spec X86Vec X86 X86Lemmas X86Proofs X86Masks X86Ops Fp FpLemmas FpOps FKern FMath FMathProofs FLane FFields FManip FManipLanes PropX86 PropFloat PropManip RoundProofs RoundSem Round RoundVec FArith PropArith PropIeee FErr Cvt CvtProofs PropCvt.
Set Implicit Arguments.
Local Open Scope Z_scope.
Local Notation bp := (bpow radix2).

Lemma sse4_int x : word 64 x -> let n := x mod 2 ^ 48 + 2 ^ 16 * wrap 32 (sgn 32 (x mod 2 ^ 32) / 2 ^ 16) in
  0 <= n < 2 ^ 49 /\ (n = x <-> x < 2 ^ 48 /\ x mod 2 ^ 32 < 2 ^ 16).
Proof.
  intros [H0 H1] n. unfold n. pose proof (Z.mod_pos_bound x (2 ^ 48) ltac:(lia)) as M. pose proof (Z.div_mod x (2 ^ 48) ltac:(lia)) as D.
  pose proof (Z.mod_pos_bound x (2 ^ 32) ltac:(lia)) as Hlo. set (lo := x mod 2 ^ 32) in *. pose proof (srai_word (sgn 32 lo / 2 ^ 16)) as T.
  assert (S : sgn 32 lo = if lo <? 2 ^ 31 then lo else lo - 2 ^ 32) by reflexivity.
  pose proof (Z.div_mod (sgn 32 lo) (2 ^ 16) ltac:(lia)) as DS. pose proof (Z.mod_pos_bound (sgn 32 lo) (2 ^ 16) ltac:(lia)) as MS.
  assert (W : wrap 32 (sgn 32 lo / 2 ^ 16) = 0 <-> lo < 2 ^ 16).
  { unfold wrap. set (s := sgn 32 lo) in *. pose proof (Z.div_mod (s / 2 ^ 16) (2 ^ 32) ltac:(lia)) as DW. pose proof (Z.mod_pos_bound (s / 2 ^ 16) (2 ^ 32) ltac:(lia)) as MW. destruct (lo <? 2 ^ 31) eqn:L; lia. }
  set (t := wrap 32 _) in *. split; lia.
Qed.
(** int64 -> double on 128-bit vectors with SSE4.1 and on 256-bit AVX vectors without AVX2, decided: the nearest double comes out
    exactly for 0 <= x < 2^48 whose bits 16 to 31 are all zero; every other int64 value is converted wrongly. *)
Theorem C34_int64_to_double_sse41_decided : forall X (HX : xty_ok X), esz (xT X) = 8%nat ->
  is256 X = false /\ sse41 (xc X) = true \/ is256 X = true /\ avx2 (xc X) = false -> forall nn,
  let P := fun x y => nearest_float F64 (sgn 64 x) y <-> x < 2 ^ 48 /\ x mod 2 ^ 32 < 2 ^ 16 in
  load_gives X (cvt_to_f X true nn) P /\ store_gives X (cvt_to_f X true nn) P.
Proof.
  intros X HX E G nn P. apply both with (k := i64l_sse4 nn); auto.
  - intros v Hv. apply k_i64_bad; auto. intros [[H1 H2] | [H1 H2]]; destruct G as [[G1 G2] | [G1 G2]]; congruence.
  - intros x Hx. rewrite (@xw8 X E) in *. pose proof (i64l_sse4_val nn Hx) as Q. destruct (sse4_int Hx) as [B I]. set (n := x mod 2 ^ 48 + _) in *. split; [apply Q|]. unfold P. destruct Hx as [H0 H1]. rewrite <- I.
    pose proof Q as (_ & _ & V & S). rewrite rnd_int_exact in V by (change (2 ^ prec F64) with (2 ^ 53); lia). split.
    + intros (_ & _ & V' & S'). rewrite V' in V. rewrite S in S'. assert (P0 : 0 <= sgn 64 x) by lia. assert (Ex : sgn 64 x = x) by (unfold sgn in *; destruct (x <? 2 ^ (64 - 1)); lia). rewrite Ex in *.
      destruct (Z_le_gt_dec x (2 ^ 53)) as [L|L].
      * rewrite rnd_int_exact in V by (change (2 ^ prec F64) with (2 ^ 53); lia). symmetry. now apply eq_IZR.
      * exfalso. assert (K : (rnd F64 (IZR (2 ^ 53)) <= rnd F64 (IZR x))%R) by (apply round_le; try typeclasses eauto; apply IZR_le; lia). rewrite rnd_int_exact in K by (change (2 ^ prec F64) with (2 ^ 53); lia). rewrite V in K. apply le_IZR in K. lia.
    + intros En. rewrite En in Q. assert (Ex : sgn 64 x = x) by (unfold sgn; replace (x <? 2 ^ (64 - 1)) with true by lia; reflexivity). rewrite Ex. exact Q.
Qed.
Print Assumptions C34_int64_to_double_sse41_decided.
Example C34_int64_to_double_sse41_decided_case : let D := d2 sse4 in xty_ok D /\ is256 D = false /\ sse41 (xc D) = true /\
  x_copy_from_cvt D (cvt_to_f D true nans0) Ok [65535; 2 ^ 48 + 5]%Z 0 [[0; 0]]%Z = Ok [[0x40efffe000000000; 0x4014000000000000]]%Z.
Proof. intros D. split; [xok|]. vm_compute. repeat split. Qed.
