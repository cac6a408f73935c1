(** C37: round (and away-from-zero rounding) of large numbers without SSE4.1: always wrong. *)
From Coq Require Import ZifyBool ZifyNat Reals Lra.
From Flocq Require Import Core IEEE754.BinarySingleNaN IEEE754.Binary.
From Verif Require Import Base Cxx Spec X86Vec X86 X86Lemmas X86Proofs X86Masks X86Ops X86Shift Fp FpLemmas FpOps FKern FMath FMathProofs FNext PropX86 PropFloat
  FLane FManip FManipLanes FFields FScalbn FRoute FRouteProofs PropManip Cvt CvtProofs PropCvt Logb LogbProofs PropLogb Round RoundProofs RoundLanes RoundSem RoundVec PropRound PropRoundRange.
Set Implicit Arguments.
Local Open Scope nat_scope.

Lemma rnd_bpow f e : (0 <= e < 63)%Z -> rnd f (bpow radix2 e) = bpow radix2 e.
Proof. intros H. apply rnd_id. apply generic_format_bpow. destruct f; unfold SpecFloat.fexp, SpecFloat.emin; cbn; lia. Qed.
Lemma tx1_bound X nn y : let t := fof_int (xf X) (sgn 32 (fto_int nn (xf X) mode_ZR 32 y)) in
  word (fw (xf X)) t /\ isfin (xf X) t = true /\ (Rabs (val (xf X) t) <= bpow radix2 31)%R.
Proof.
  cbv zeta. set (n := sgn 32 _). assert (Hn : (- 2 ^ 31 <= n < 2 ^ 31)%Z). { unfold n. pose proof (@fto_int_word nn (xf X) mode_ZR 32 y ltac:(lia)) as H. unfold word, sgn in *. destruct (_ <? _)%Z eqn:E; cbn in *; lia. }
  destruct (@fof_int_ok (xf X) n) as (A & B & C & _). { lia. } split; auto. split; auto. rewrite C.
  assert (L : (Rabs (IZR n) <= bpow radix2 31)%R). { rewrite <- abs_IZR. rewrite <- IZR_Zpower by lia. apply IZR_le. cbn. lia. }
  assert (K := @rnd_bpow (xf X) 31 ltac:(lia)). rewrite <- K. apply Rabs_le_inv in L; destruct L as [L1 L2]. apply Rabs_le. split.
  - rewrite <- rnd_opp. now apply rnd_mono.
  - now apply rnd_mono.
Qed.

(** Beyond the int32 range the result lies between -2^32 and 0, so it is wrong from 2^31 up and below -2^32 - 1/2. *)
Theorem C37_round_sse2_range_refuted : forall nn X x, xty_ok X -> is_int (xT X) = false -> shaped X x -> is256 X = false -> sse41 (xc X) = false ->
  each1 X x (x_round X nn x) (fun x y => isfin (xf X) x = true -> ~ fits 32 (Ztrunc (val (xf X) x)) ->
    (IZR (- 2 ^ 32) <= val (xf X) y <= 0)%R /\
    ((0 < val (xf X) x)%R \/ (val (xf X) x < IZR (- 2 ^ 32) - / 2)%R -> ~ rounds_val (xf X) away x y)).
Proof.
  intros nn X x HX HF Hx E2 E4. apply x_round_each; auto. intros v Hv Fv R. unfold round1. cbv zeta. rewrite E2, E4, (xw_fw HX HF).
  assert (T : tx1 X nn v = fof_int (xf X) (- 2 ^ 31)) by (unfold tx1; rewrite fto_int_bad; auto). rewrite T.
  destruct (low_tx (xf X)) as (Wt & Ft & Vt). set (q := fmul _ _ _ _). unfold tx1. destruct (tx1_bound X nn q) as (Wu & Fu & Vu). set (u := fof_int (xf X) (sgn 32 _)) in *. clearbody u. clear q.
  assert (B31 : bpow radix2 31 = 2147483648%R) by reflexivity. assert (B32 : bpow radix2 32 = 4294967296%R) by reflexivity. assert (M31 : IZR (- 2 ^ 31) = (-2147483648)%R) by reflexivity. assert (M32 : IZR (- 2 ^ 32) = (-4294967296)%R) by reflexivity.
  apply Rabs_le_inv in Vu; destruct Vu as [U1 U2].
  assert (S : (- bpow radix2 32 <= rnd (xf X) (val (xf X) (fof_int (xf X) (- 2 ^ 31)) + val (xf X) u) <= 0)%R).
  { split; [rewrite <- (@rnd_bpow (xf X) 32), <- rnd_opp by lia; apply rnd_mono; lra|].
    assert (Z0 : rnd (xf X) 0 = 0%R) by (apply rnd_id, generic_format_0). rewrite <- Z0. apply rnd_mono; lra. }
  destruct (@fadd_fin nn (xf X) (fof_int (xf X) (- 2 ^ 31)) u) as (A1 & A2 & _); auto.
  { apply Rle_lt_trans with (bpow radix2 32); [apply Rabs_le; lra|apply bpow_lt; destruct (xf X); cbn; lia]. }
  rewrite A1. split; [lra|]. intros C [_ V]. rewrite A1 in V. assert (C' : (0 < IZR (away (val (xf X) v)) \/ IZR (away (val (xf X) v)) < IZR (- 2 ^ 32))%R); [|lra].
  destruct C as [C|C].
  - left. rewrite away_pos by lra. apply IZR_lt. assert (P : ~ (val (xf X) v < IZR (2 ^ 31))%R).
    { intros Q. apply R. unfold fits. rewrite Ztrunc_floor by lra. pose proof (Zfloor_lb (val (xf X) v)) as L. assert (0 <= Zfloor (val (xf X) v))%Z by (apply Zfloor_lub; cbn; lra).
      assert (Zfloor (val (xf X) v) < 2 ^ 31)%Z by (apply lt_IZR; lra). lia. }
    assert (1 <= Zfloor (val (xf X) v + / 2))%Z; [|lia]. apply Zfloor_lub. assert (IZR (2 ^ 31) = 2147483648%R) by reflexivity. cbn. lra.
  - right. apply IZR_lt. unfold away. rewrite Rlt_bool_true by lra. assert (2 ^ 32 + 1 <= Zfloor (- val (xf X) v + / 2))%Z; [|lia]. apply Zfloor_lub. rewrite plus_IZR.
    assert (IZR (2 ^ 32) = 4294967296%R) by reflexivity. lra.
Qed.
Print Assumptions C37_round_sse2_range_refuted.
(** 2^31 and 3000000000 both give -2^32 *)
Example C37_round_sse2_range_case : let X := {| xc := sse2; xT := {| esz := 8; ek := KFloat |}; xvs := 16; xN := 2 |} in xty_ok X /\
  x_round X nans0 [[0x41e0000000000000; 0x41e65a0bc0000000]]%Z = Ok [[0xc1f0000000000000; 0xc1f0000000000000]]%Z.
Proof. split; [xok|vm_compute; reflexivity]. Qed.
